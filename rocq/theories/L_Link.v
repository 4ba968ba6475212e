(** The link of an inner vertex p of a Delaunay tiling, and what replaces the
    triangles around p when it is removed. *)
From Coq Require Import ZArith List Bool Lia Psatz Permutation.
From Verif Require Import M_Geom S_Geom M_Raster S_Raster L_Raster1 L_Raster6 S_Delaunay L_Plane L_BW L_Ear.
Import ListNotations.
Local Open Scope Z_scope.

Lemma two_in {A} (dec : forall x y : A, {x = y} + {x <> y}) (l : list A) x y : In x l -> In y l -> x <> y ->
  exists l1 u l2 v l3, l = l1 ++ u :: l2 ++ v :: l3 /\ ((u = x /\ v = y) \/ (u = y /\ v = x)).
Proof.
  intros I J N. apply in_split in I. destruct I as (l1 & l2 & ->). apply in_app_or in J. destruct J as [J|[J|J]]; [|congruence|].
  - apply in_split in J. destruct J as (k1 & k2 & ->). exists k1, y, k2, x, l2. split; [rewrite <- app_assoc; reflexivity|auto].
  - apply in_split in J. destruct J as (k1 & k2 & ->). exists l1, x, k1, y, k2. auto.
Qed.
Lemma tri_eq_dec (t u : tri) : {t = u} + {t <> u}.
Proof. decide equality; apply point_eq_dec. Qed.

Section Link.
  Variables (s : tri) (P : list point) (T B K : list tri) (p : point).
  Hypothesis HT : delaunay_tiling s P T.
  Hypothesis Hp : In p P.
  Hypothesis HBK : Permutation T (B ++ K).
  Hypothesis HB : forall t, In t B -> In p (verts t).
  Hypothesis HK : forall t, In t K -> ~ In p (verts t).
  Notation cr := (orient p).
  Notation I3 a b c := (incirc a b c p).

  Definition linkE (a b : point) : Prop := exists t, In t B /\ (t = Tri p a b \/ t = Tri b p a \/ t = Tri a b p).

  Lemma B_T t : In t B -> In t T.
  Proof. intros I. eapply Permutation_in; [apply Permutation_sym, HBK|apply in_or_app; auto]. Qed.
  Lemma T_B t : In t T -> In p (verts t) -> In t B.
  Proof. intros I V. eapply Permutation_in in I; [|exact HBK]. apply in_app_or in I. destruct I as [I|I]; [exact I|]. exfalso. eapply HK; eauto. Qed.
  Lemma TL : tiling s T. Proof. apply HT. Qed.
  Lemma T_pos t : In t T -> pos t.
  Proof. intros I. eapply Forall_forall; [apply (t_pos _ _ TL)|exact I]. Qed.

  Lemma p_not_outer : ~ In p (verts s).
  Proof.
    intros I. pose proof (dt_inner _ _ _ HT p Hp) as Q. unfold inner, inside in Q. rewrite !oloc_at in Q. destruct Q as (Q1 & Q2 & Q3).
    unfold verts in I. cbn [In] in I. unfold orient in *. destruct I as [E|[E|[E|[]]]]; rewrite E in *; lia.
  Qed.

  Lemma link_of_tri t : In t T -> In p (verts t) -> exists a b, linkE a b /\ (t = Tri p a b \/ t = Tri b p a \/ t = Tri a b p).
  Proof.
    intros I V. pose proof (T_B t I V) as J. destruct t as [x y z]. unfold verts in V. cbn [ta tb tc In] in V. destruct V as [->|[->|[->|[]]]].
    - exists y, z. split; [exists (Tri p y z); auto|auto].
    - exists z, x. split; [exists (Tri x p z); auto|auto].
    - exists x, y. split; [exists (Tri x y p); auto|auto].
  Qed.
  Lemma link_pos a b : linkE a b -> 0 < cr a b.
  Proof. intros (t & I & E). apply B_T, T_pos in I. destruct E as [->|[->| ->]]; unfold pos in I; cbn [ta tb tc] in I; unfold orient in *; lia. Qed.
  Lemma link_empty a b x : linkE a b -> In x (verts s ++ P) -> 0 <= I3 a b x.
  Proof.
    intros (t & I & E) Hx. pose proof (dt_empty _ _ _ HT t x (B_T t I) Hx) as Q. unfold tinc in Q.
    assert (X : incirc (ta t) (tb t) (tc t) x = - I3 a b x) by (destruct E as [->|[->| ->]]; cbn [ta tb tc]; unfold incirc; ring). lia.
  Qed.
  Lemma link_In a b : linkE a b -> In a (verts s ++ P) /\ In b (verts s ++ P).
  Proof. intros (t & I & E). split; apply (dt_verts _ _ _ HT t); try (apply B_T, I); destruct E as [->|[->| ->]]; cbn; auto. Qed.
  Lemma link_ne a b : linkE a b -> a <> p /\ b <> p.
  Proof. intros H. apply link_pos in H. split; intros ->; unfold orient in H; lia. Qed.

  Lemma link_edge a : In (p, a) (flat_map tedges T) -> exists c, linkE a c.
  Proof.
    intros I. apply in_flat_map in I. destruct I as (t & It & I). destruct (edge_apex _ _ _ I) as (c & E). exists c. exists t. split; [|exact E].
    apply T_B; [exact It|]. destruct E as [->|[->| ->]]; cbn; auto.
  Qed.
  Lemma link_edge' a : In (a, p) (flat_map tedges T) -> exists c, linkE c a.
  Proof.
    intros I. apply in_flat_map in I. destruct I as (t & It & I). destruct (edge_apex _ _ _ I) as (c & E). exists c. exists t. split; [|tauto].
    apply T_B; [exact It|]. destruct E as [->|[->| ->]]; cbn; auto.
  Qed.
  Lemma not_outer_edge a b : In (a, b) (tedges s) -> a <> p /\ b <> p.
  Proof.
    intros I. pose proof p_not_outer as N. destruct s as [x y z]. unfold tedges in I. unfold verts in N. cbn [ta tb tc In] in *.
    destruct I as [[= <- <-]|[[= <- <-]|[[= <- <-]|[]]]]; split; intros ->; apply N; auto.
  Qed.
  Lemma link_succ a b : linkE a b -> exists c, linkE b c.
  Proof.
    intros (t & I & E). assert (J : In (b, p) (flat_map tedges T)).
    { apply in_flat_map. exists t. split; [apply B_T, I|]. destruct E as [->|[->| ->]]; cbn; auto. }
    apply (tiling_neighbour s T b p TL) in J. destruct J as [J|J]; [apply link_edge, J|]. apply not_outer_edge in J. tauto.
  Qed.
  Lemma link_pred a b : linkE a b -> exists c, linkE c a.
  Proof.
    intros (t & I & E). assert (J : In (p, a) (flat_map tedges T)).
    { apply in_flat_map. exists t. split; [apply B_T, I|]. destruct E as [->|[->| ->]]; cbn; auto. }
    apply (tiling_neighbour s T p a TL) in J. destruct J as [J|J]; [apply link_edge', J|]. apply not_outer_edge in J. tauto.
  Qed.

  (** Triangles around p do not overlap. *)
  Lemma link_apart a b v w : linkE a b -> linkE v w -> 0 <= cr a v -> 0 < cr v b -> v = a /\ w = b.
  Proof.
    intros L1 L2 C1 C2. pose proof (link_pos _ _ L1) as P1. pose proof (link_pos _ _ L2) as P2.
    pose proof (link_ne _ _ L1) as (N1 & N2). pose proof (link_ne _ _ L2) as (N3 & N4).
    assert (ID : cr a w * cr v b = cr v w * cr a b + cr a v * cr w b) by (unfold orient; ring).
    set (Kk := 1 + Z.abs (cr a w) + Z.abs (cr w b)).
    assert (D1 : 0 < Kk * cr a v + cr a w).
    { destruct (Z.eq_dec (cr a v) 0) as [Q|Q]; [rewrite Q in *; nia|]. assert (Kk <= Kk * cr a v) by nia. lia. }
    assert (D2 : 0 < Kk * cr v b + cr w b) by (assert (Kk <= Kk * cr v b) by nia; lia).
    set (dx := Kk * (px v - px p) + (px w - px p)). set (dy := Kk * (py v - py p) + (py w - py p)).
    set (g := fun a b => (px b - px a) * dy - (py b - py a) * dx).
    set (M := 1 + Z.abs (g a b) + Z.abs (g v w)). set (q := Loc (M * px p + dx) (M * py p + dy) M).
    assert (INS : forall x y, 0 < cr x y -> 0 < g p x -> 0 < - g p y -> Z.abs (g x y) < M -> inside q (Tri p x y)).
    { intros x y X0 X1 X2 X3. unfold inside. cbn [ta tb tc].
      assert (E1 : oloc p x q = g p x) by (unfold oloc, q, g; cbn [lx ly lm]; ring).
      assert (E2 : oloc y p q = - g p y) by (unfold oloc, q, g; cbn [lx ly lm]; ring).
      assert (E3 : oloc x y q = M * cr x y + g x y) by (unfold oloc, q, g, orient; cbn [lx ly lm]; ring).
      rewrite E1, E2, E3. split; [exact X1|]. split; [|exact X2]. assert (M <= M * cr x y) by nia. lia. }
    assert (G1 : g p a = Kk * cr a v + cr a w) by (unfold g, dx, dy, orient; ring).
    assert (G2 : - g p b = Kk * cr v b + cr w b) by (unfold g, dx, dy, orient; ring).
    assert (G3 : g p v = cr v w) by (unfold g, dx, dy, orient; ring).
    assert (G4 : - g p w = Kk * cr v w) by (unfold g, dx, dy, orient; ring).
    assert (Mpos : 0 < lm q) by (unfold q; cbn [lm]; unfold M; lia).
    assert (I1 : inside q (Tri p a b)) by (apply INS; [exact P1|lia|lia|unfold M; lia]).
    assert (I2 : inside q (Tri p v w)).
    { apply INS; [exact P2|lia|rewrite G4; assert (0 < Kk) by (unfold Kk; lia); nia|unfold M; lia]. }
    destruct L1 as (t1 & B1 & E1). destruct L2 as (t2 & B2 & E2).
    assert (J1 : inside q t1) by (eapply rot_inside3; [|exact I1]; tauto). assert (J2 : inside q t2) by (eapply rot_inside3; [|exact I2]; tauto).
    destruct (tri_eq_dec t1 t2) as [Q|Q].
    - clear - E1 E2 Q N1 N2 N3 N4. subst t2. destruct E1 as [->|[->| ->]]; destruct E2 as [E|[E|E]]; injection E; intros; subst; auto; congruence.
    - exfalso. destruct (two_in tri_eq_dec T t1 t2 (B_T _ B1) (B_T _ B2) Q) as (l1 & u & l2 & v' & l3 & E & W).
      eapply (tiling_disjoint s T q l1 u l2 v' l3 TL Mpos E); destruct W as [[-> ->]|[-> ->]]; assumption.
  Qed.

  (** The triangles around p cover all directions. *)
  Lemma link_cone dx dy : exists a b, linkE a b /\ 0 <= (px a - px p) * dy - (py a - py p) * dx /\ 0 <= dx * (py b - py p) - dy * (px b - px p).
  Proof.
    set (g := fun a b => (px b - px a) * dy - (py b - py a) * dx).
    set (dev := fun t => Z.abs (g (ta t) (tb t)) + Z.abs (g (tb t) (tc t)) + Z.abs (g (tc t) (ta t))).
    assert (exists M, 1 <= M /\ dev s < M /\ forall t, In t T -> dev t < M) as (M & M1 & Ms & MT).
    { generalize T. intros l. induction l as [|t l (M & M1 & Ms & IH)].
      - exists (1 + dev s + 1). unfold dev. split; [lia|]. split; [lia|]. intros t [].
      - exists (M + dev t + 1). assert (0 <= dev t) by (unfold dev; lia). split; [lia|]. split; [lia|]. intros t' [<-|I]; [lia|]. specialize (IH t' I). lia. }
    set (q := Loc (M * px p + dx) (M * py p + dy) M).
    assert (Q : forall a b, oloc a b q = M * orient a b p + g a b) by (intros; unfold q, oloc, orient, g; cbn [lx ly lm]; ring).
    assert (Iq : inside q s).
    { pose proof (dt_inner _ _ _ HT p Hp) as I. unfold inner, inside in *. rewrite !oloc_at in I. rewrite !Q.
      unfold dev in Ms. destruct I as (I1 & I2 & I3').
      set (x1 := orient (ta s) (tb s) p) in *. set (x2 := orient (tb s) (tc s) p) in *. set (x3 := orient (tc s) (ta s) p) in *. clearbody x1 x2 x3.
      assert (M * x1 >= M) by nia. assert (M * x2 >= M) by nia. assert (M * x3 >= M) by nia. lia. }
    destruct (tiling_covers s T q TL ltac:(cbn; lia) Iq) as (t & It & _ & Ct).
    pose proof (T_pos t It) as Pt. specialize (MT t It). unfold dev in MT. unfold within in Ct.
    assert (V : In p (verts t)).
    { destruct t as [a b c]. unfold pos in Pt. cbn [ta tb tc] in *. rewrite !Q in Ct.
      assert (0 <= orient a b p /\ 0 <= orient b c p /\ 0 <= orient c a p) as (V1 & V2 & V3).
      { set (x1 := orient a b p) in *. set (x2 := orient b c p) in *. set (x3 := orient c a p) in *. clearbody x1 x2 x3.
        repeat split; match goal with |- 0 <= ?x => destruct (Z_lt_le_dec x 0); [|assumption]; exfalso; assert (M * x <= - M) by nia; lia end. }
      destruct (closed_in_circle a b c p Pt V1 V2 V3) as [Y Hvert].
      pose proof (dt_empty _ _ _ HT (Tri a b c) p It ltac:(apply in_or_app; auto)) as Ev. unfold tinc in Ev. cbn [ta tb tc] in Ev.
      unfold verts. cbn [ta tb tc In]. destruct Hvert as [->|[->| ->]]; auto. lia. }
    destruct (link_of_tri t It V) as (a & b & L & E). exists a, b. split; [exact L|].
    assert (Z0 : orient p a p = 0) by (unfold orient; ring). assert (Z1 : orient b p p = 0) by (unfold orient; ring).
    assert (W : 0 <= oloc p a q /\ 0 <= oloc b p q) by (destruct E as [->|[->| ->]]; cbn [ta tb tc] in Ct; tauto).
    rewrite !Q, Z0, Z1 in W. unfold g in W. lia.
  Qed.

  (** * The sorted link *)
  Variable L : list point.
  Hypothesis L_link : forall v, In v L <-> exists w, linkE v w.
  Hypothesis L_nodup : NoDup L.
  Hypothesis L_order : forall l1 x l2 y l3 z l4, L = l1 ++ x :: l2 ++ y :: l3 ++ z :: l4 -> CC p x y z.

  Lemma L_in2 a b : linkE a b -> In a L /\ In b L.
  Proof. intros H. split; apply L_link; [eauto|]. eapply link_succ; eauto. Qed.
  Lemma L_spans : spans p L.
  Proof.
    intros lx ly H. destruct (link_cone lx ly) as (a & b & E & C1 & C2). pose proof (link_pos _ _ E) as C. destruct (L_in2 _ _ E) as [Ia Ib].
    pose proof (H a Ia) as Ha. pose proof (H b Ib) as Hb.
    assert (ID : (lx * lx + ly * ly) * cr a b = (lx * (py b - py p) - ly * (px b - px p)) * (lx * (px a - px p) + ly * (py a - py p))
       + ((px a - px p) * ly - (py a - py p) * lx) * (lx * (px b - px p) + ly * (py b - py p))) by (unfold orient; ring).
    set (A := lx * (px a - px p) + ly * (py a - py p)) in *. set (B' := lx * (px b - px p) + ly * (py b - py p)) in *.
    assert (0 < lx * lx + ly * ly). { unfold A in Ha. destruct (Z.eq_dec lx 0) as [->|]; [destruct (Z.eq_dec ly 0) as [->|]|]; nia. }
    set (c1 := (px a - px p) * ly - (py a - py p) * lx) in *. set (c2 := lx * (py b - py p) - ly * (px b - px p)) in *. set (m := lx * lx + ly * ly) in *. clearbody A B' c1 c2 m.
    assert (0 < m * cr a b) by nia. assert (c2 * A <= 0) by nia. assert (c1 * B' <= 0) by nia. lia.
  Qed.

  Definition consec2 (v w : point) : Prop := exists R, rotl L (v :: w :: R).
  Lemma link_consec v w : linkE v w -> consec2 v w.
  Proof.
    intros E. pose proof (link_pos _ _ E) as C. destruct (L_in2 _ _ E) as [Iv Iw].
    assert (BET : forall x, In x L -> 0 < cr v x -> 0 < cr x w -> False).
    { intros x Ix X1 X2. apply L_link in Ix. destruct Ix as (y & Ey). destruct (link_apart v w x y E Ey ltac:(lia) X2) as [-> _]. unfold orient in X1. lia. }
    assert (N : v <> w) by (intros ->; unfold orient in C; lia).
    destruct (two_in point_eq_dec L v w Iv Iw N) as (l1 & a & l2 & b & l3 & EL & [[-> ->]|[-> ->]]).
    - destruct l2 as [|x l2].
      + exists (l3 ++ l1). exists l1, (v :: w :: l3). auto.
      + exfalso. pose proof (L_order l1 v [] x l2 w l3 EL) as Q. unfold CC in Q. pose proof (cr_anti p v w).
        apply (BET x); [rewrite EL; apply in_or_app; right; right; left; reflexivity|lia|lia].
    - destruct l1 as [|x l1].
      + destruct l3 as [|x l3].
        * exists l2. exists (w :: l2), [v]. auto.
        * exfalso. pose proof (L_order [] w l2 v [] x l3 EL) as Q. unfold CC in Q. pose proof (cr_anti p v w).
          apply (BET x); [rewrite EL; right; apply in_or_app; right; right; left; reflexivity|lia|lia].
      + exfalso. pose proof (L_order [] x l1 w l2 v l3 EL) as Q. unfold CC in Q. pose proof (cr_anti p v w).
        apply (BET x); [rewrite EL; left; reflexivity|lia|lia].
  Qed.
  Lemma consec_fun v w w' : consec2 v w -> consec2 v w' -> w = w'.
  Proof.
    intros (R & H) (R' & H'). pose proof (rotl_trans _ _ _ (rotl_sym _ _ H) H') as (x & y & E & E').
    pose proof (Permutation_NoDup (rotl_perm _ _ H) L_nodup) as ND. destruct x as [|h x].
    - rewrite app_nil_r in E'. cbn in E. congruence.
    - cbn in E. injection E as <- E. destruct y as [|h y]; [cbn in E'; rewrite app_nil_r in E; congruence|].
      cbn in E'. injection E' as <- E'. inversion ND as [|? ? N _]; subst. exfalso. apply N. rewrite E. apply in_or_app. right. left. reflexivity.
  Qed.
  Lemma consec_link v w : consec2 v w -> linkE v w.
  Proof.
    intros H. assert (I : In v L) by (destruct H as (R & H); apply (rotl_In _ _ _ H); left; reflexivity).
    apply L_link in I. destruct I as (w' & E). rewrite (consec_fun _ _ _ H (link_consec _ _ E)). exact E.
  Qed.

  Lemma link_some : exists a b, linkE a b.
  Proof. destruct (link_cone 1 0) as (a & b & E & _). eauto. Qed.
  Lemma L_three : (3 <= length L)%nat.
  Proof.
    destruct link_some as (a & b & E). destruct (link_succ _ _ E) as (c & F). pose proof (link_pos _ _ E) as C1. pose proof (link_pos _ _ F) as C2.
    destruct (L_in2 _ _ E) as [Ia Ib]. destruct (L_in2 _ _ F) as [_ Ic].
    assert (NoDup [a; b; c]).
    { assert (Z : forall x, cr x x = 0) by (intros; unfold orient; ring). pose proof (cr_anti p a b).
      repeat constructor; cbn; intros Q; repeat (destruct Q as [Q|Q]); try contradiction; subst; rewrite ?Z in *; try lia. }
    apply (NoDup_incl_length H). intros x [<-|[<-|[<-|[]]]]; assumption.
  Qed.

  Lemma L_good : good p L.
  Proof.
    intros l1 x l2 y l3 z l4 E. split; [eapply L_order; eauto|].
    assert (M : forall a b c, In a L -> In b L -> In c L -> 0 <= cr a b -> 0 <= cr b c -> 0 <= I3 a b c).
    { intros a b c Ia Ib Ic C1 C2. apply L_link in Ib. destruct Ib as (w & F). pose proof (link_pos _ _ F) as C. pose proof (lin p b w a b c) as Q.
      apply L_link in Ia. destruct Ia as (wa & Fa). apply L_link in Ic. destruct Ic as (wc & Fc).
      pose proof (link_empty b w a F (proj1 (link_In _ _ Fa))) as Ea. pose proof (link_empty b w c F (proj1 (link_In _ _ Fc))) as Ec.
      assert (I3 b w b = 0) by (unfold incirc; ring). nia. }
    assert (Ix : In x L) by (rewrite E; apply in_or_app; right; left; reflexivity).
    assert (Iy : In y L) by (rewrite E; apply in_or_app; right; right; apply in_or_app; right; left; reflexivity).
    assert (Iz : In z L) by (rewrite E; apply in_or_app; right; right; apply in_or_app; right; right; apply in_or_app; right; left; reflexivity).
    pose proof (L_order _ _ _ _ _ _ _ E) as C. destruct C as [[C1 C2]|[[C1 C2]|[C1 C2]]].
    - apply M; auto; lia.
    - rewrite <- incirc_rot. apply M; auto; lia.
    - rewrite <- 2 incirc_rot. apply M; auto; lia.
  Qed.

  (** Empty among the link is empty among all points. *)
  Lemma link_global u v w x : 0 < orient u v w -> 0 <= I3 u v w -> (forall d, In d L -> incirc u v w d <= 0) ->
    In x (verts s ++ P) -> x <> p -> incirc u v w x <= 0.
  Proof.
    intros O I H Hx N. destruct (link_cone (px x - px p) (py x - py p)) as (a & b & E & C1 & C2).
    assert (C1' : 0 <= cr a x) by (unfold orient; lia). assert (C2' : 0 <= cr x b) by (unfold orient; lia). clear C1 C2.
    pose proof (link_pos _ _ E) as C. destruct (L_in2 _ _ E) as [Ia Ib]. pose proof (H a Ia) as Fa. pose proof (H b Ib) as Fb.
    pose proof (link_empty a b x E Hx) as Ix. pose proof (side_id p a b x u v w) as Q.
    assert (Ox : orient a b x <= 0 \/ x = a \/ x = b).
    { destruct (Z_lt_le_dec 0 (orient a b x)) as [G|G]; [right|auto].
      destruct (closed_in_circle p a b x C) as [Y V]; [exact C1'|lia|unfold orient in *; lia|].
      assert (incirc p a b x = - I3 a b x) by (unfold incirc; ring). destruct V as [->|[->| ->]]; [lia|congruence|auto|auto]. }
    destruct Ox as [Ox|[->| ->]]; [|assumption|assumption].
    set (f := incirc u v w x) in *. assert (cr x b * incirc u v w a <= 0) by nia. assert (cr a x * incirc u v w b <= 0) by nia.
    assert (I3 u v w * orient a b x <= 0) by nia. assert (0 <= orient u v w * I3 a b x) by nia. nia.
  Qed.

  (** * The boundary of the hole *)
  Lemma map_fst_path a R e : map fst (path a R e) = a :: R.
  Proof. revert a. induction R as [|b R IH]; intros a; [reflexivity|]. cbn [path map fst]. rewrite IH. reflexivity. Qed.
  Lemma cyc_nodup : NoDup (cyc L).
  Proof.
    apply (NoDup_map_inv fst). destruct L as [|a R]; [constructor|]. cbn [cyc]. rewrite map_fst_path. exact L_nodup.
  Qed.
  Lemma path_In a R e v w : In (v, w) (path a R e) -> exists l1 l2, a :: R ++ [e] = l1 ++ v :: w :: l2.
  Proof.
    revert a. induction R as [|b R IH]; intros a; cbn [path In].
    - intros [[= <- <-]|[]]. exists [], []. reflexivity.
    - intros [[= <- <-]|I]; [exists [], (R ++ [e]); reflexivity|]. destruct (IH b I) as (l1 & l2 & E). exists (a :: l1), l2. cbn [app] in *. rewrite E. reflexivity.
  Qed.
  Lemma cyc_link v w : In (v, w) (cyc L) <-> linkE v w.
  Proof.
    pose proof L_three as L3. split.
    - intros I. apply consec_link. destruct L as [|a R] eqn:EL; [destruct I|]. cbn [cyc] in I. apply path_In in I. destruct I as (l1 & l2 & E). unfold consec2. rewrite EL.
      destruct l2 as [|h l2 _] using rev_ind.
      + assert (E' : (a :: R) ++ [a] = (l1 ++ [v]) ++ [w]) by (rewrite <- app_assoc; exact E). apply app_inj_tail in E'. destruct E' as [E' <-].
        destruct l1 as [|h l1]; [cbn in E'; destruct R; [cbn in L3; lia|discriminate]|]. cbn in E'. injection E' as <- ->.
        exists l1. exists (a :: l1), [v]. auto.
      + assert (E' : (a :: R) ++ [a] = (l1 ++ v :: w :: l2) ++ [h]) by (rewrite <- app_assoc; exact E). apply app_inj_tail in E'. destruct E' as [E' _].
        rewrite E'. exists (l2 ++ l1). exists l1, (v :: w :: l2). auto.
    - intros E. destruct (link_consec _ _ E) as (R & H). eapply Permutation_in; [apply Permutation_sym, (cyc_rot _ _ H)|]. cbn. auto.
  Qed.

  Lemma B_edge a b : a <> p -> b <> p -> In (a, b) (flat_map tedges B) <-> linkE a b.
  Proof.
    intros Na Nb. split.
    - intros I. apply in_flat_map in I. destruct I as (t & It & I). destruct (edge_apex _ _ _ I) as (c & E). pose proof (HB t It) as V.
      assert (c = p). { destruct E as [->|[->| ->]]; cbn in V; destruct V as [->|[->|[->|[]]]]; congruence. } subst c. exists t. split; [exact It|tauto].
    - intros (t & It & E). apply in_flat_map. exists t. split; [exact It|]. destruct E as [->|[->| ->]]; cbn; auto.
  Qed.
  Lemma B_once' a b : count (edge_eqb (a, b)) (flat_map tedges B) <= 1.
  Proof.
    pose proof (tiling_edges_once s T a b TL) as H.
    assert (E : count (edge_eqb (a, b)) (flat_map tedges T) = count (edge_eqb (a, b)) (flat_map tedges (B ++ K))) by (apply count_perm, Permutation_flat_map, HBK).
    rewrite E, flat_map_app, count_app in H. pose proof (count_nonneg (edge_eqb (a, b)) (flat_map tedges K)). lia.
  Qed.
  Lemma B_count a b (b' : Prop) : (In (a, b) (flat_map tedges B) <-> b') -> (b' -> count (edge_eqb (a, b)) (flat_map tedges B) = 1) /\ (~ b' -> count (edge_eqb (a, b)) (flat_map tedges B) = 0).
  Proof.
    intros H. split; intros Q.
    - apply H in Q. apply in_count in Q. pose proof (B_once' a b). lia.
    - apply not_in_count. tauto.
  Qed.
  Lemma L_not_p : ~ In p L.
  Proof. intros I. apply L_link in I. destruct I as (w & E). apply link_ne in E. tauto. Qed.
  Lemma star_net a b : net B a b = enet (cyc L) a b.
  Proof.
    assert (SP : forall v, In (p, v) (flat_map tedges B) <-> In v L).
    { intros v. rewrite L_link. split.
      - intros I. apply link_edge. apply in_flat_map in I. destruct I as (t & It & I). apply in_flat_map. exists t. split; [apply B_T, It|exact I].
      - intros (w & t & It & E). apply in_flat_map. exists t. split; [exact It|]. destruct E as [->|[->| ->]]; cbn; auto. }
    assert (SP' : forall v, In (v, p) (flat_map tedges B) <-> In v L).
    { intros v. rewrite L_link. split.
      - intros I. assert (J : In (v, p) (flat_map tedges T)) by (apply in_flat_map in I; destruct I as (t & It & I); apply in_flat_map; exists t; split; [apply B_T, It|exact I]).
        destruct (link_edge' v J) as (c & E). eapply link_succ; eauto.
      - intros (w & E). destruct (link_pred _ _ E) as (c & t & It & E'). apply in_flat_map. exists t. split; [exact It|]. destruct E' as [->|[->| ->]]; cbn; auto. }
    assert (NC : forall x y, x = p \/ y = p -> count (edge_eqb (x, y)) (cyc L) = 0).
    { intros x y H. apply not_in_count. rewrite cyc_link. intros E. apply link_ne in E. tauto. }
    assert (ZP : forall v, net B p v = 0).
    { intros v. unfold net. destruct (B_count p v _ (SP v)) as [Q1 Q2]. destruct (B_count v p _ (SP' v)) as [Q3 Q4].
      destruct (in_dec point_eq_dec v L) as [I|I]; [rewrite (Q1 I), (Q3 I); lia|rewrite (Q2 I), (Q4 I); lia]. }
    destruct (point_eq_dec a p) as [->|Na]; [unfold enet; rewrite ZP, !NC by auto; reflexivity|].
    destruct (point_eq_dec b p) as [->|Nb].
    { unfold enet. rewrite !NC by auto. pose proof (ZP a) as Q. unfold net in *. lia. }
    assert (CE : forall x y, x <> p -> y <> p -> count (edge_eqb (x, y)) (flat_map tedges B) = count (edge_eqb (x, y)) (cyc L)).
    { intros x y Nx Ny. destruct (B_count x y _ (B_edge x y Nx Ny)) as [Q1 Q2].
      destruct (edge_in_dec (x, y) (cyc L)) as [I|I].
      - rewrite (nodup_count _ _ cyc_nodup I). apply Q1, cyc_link, I.
      - rewrite (not_in_count _ _ I). apply Q2. rewrite <- cyc_link. exact I. }
    unfold net, enet. rewrite !CE by assumption. reflexivity.
  Qed.

  Theorem remove_delaunay P' N : earcut p L N -> (forall x, In x P' <-> In x P /\ x <> p) -> delaunay_tiling s P' (K ++ map tri3 N).
  Proof.
    intros E HP. pose proof (earcut_ok p L L N E L_good L_spans ltac:(intros u v w _ H; exact H) L_three) as OK.
    assert (NI : forall t, In t (map tri3 N) -> exists a b c, t = Tri a b c /\ In (a, b, c) N).
    { intros t I. apply in_map_iff in I. destruct I as ([[a b] c] & <- & I). exists a, b, c. auto. }
    assert (LV : forall v, In v L -> In v (verts s ++ P')).
    { intros v I. apply L_link in I. destruct I as (w & F). pose proof (link_ne _ _ F) as [N1 _]. apply link_In in F. destruct F as [F _].
      apply in_app_or in F. apply in_or_app. destruct F as [F|F]; [auto|right; apply HP; auto]. }
    assert (VP : forall v, In v (verts s ++ P') -> In v (verts s ++ P) /\ v <> p).
    { intros v I. apply in_app_or in I. destruct I as [I|I].
      - split; [apply in_or_app; auto|]. intros ->. apply p_not_outer, I.
      - apply HP in I. split; [apply in_or_app; tauto|tauto]. }
    assert (KT : forall t, In t K -> In t T) by (intros t I; eapply Permutation_in; [apply Permutation_sym, HBK|apply in_or_app; auto]).
    split.
    - split.
      + intros a b. rewrite net_app, (earcut_net p L N a b E), <- star_net. rewrite <- (t_net _ _ TL a b), (net_perm _ _ a b HBK), net_app. lia.
      + apply Forall_app. split; [apply Forall_forall; intros t I; apply T_pos, KT, I|]. apply Forall_forall. intros t I.
        destruct (NI t I) as (a & b & c & -> & J). apply (OK a b c J).
      + apply TL.
    - intros x I. apply HP in I. apply (dt_inner _ _ _ HT). tauto.
    - intros t v I V. apply in_app_or in I. destruct I as [I|I].
      + pose proof (dt_verts _ _ _ HT t v (KT t I) V) as Q. apply in_app_or in Q. apply in_or_app. destruct Q as [Q|Q]; [auto|]. right. apply HP. split; [exact Q|].
        intros ->. apply (HK t I V).
      + destruct (NI t I) as (a & b & c & -> & J). destruct (OK a b c J) as (_ & _ & _ & Ia & Ib & Ic). apply LV. destruct V as [<-|[<-|[<-|[]]]]; assumption.
    - intros t x I V. destruct (VP x V) as [V1 V2]. apply in_app_or in I. destruct I as [I|I]; [apply (dt_empty _ _ _ HT); auto|].
      destruct (NI t I) as (a & b & c & -> & J). destruct (OK a b c J) as (O1 & O2 & O3 & _). unfold tinc. cbn [ta tb tc]. apply link_global; assumption.
    - intros x I. apply HP in I. destruct I as [I Nx]. destruct (dt_used _ _ _ HT x I) as (t & It & V).
      eapply Permutation_in in It; [|exact HBK]. apply in_app_or in It. destruct It as [It|It]; [|exists t; split; [apply in_or_app; auto|exact V]].
      assert (Ix : In x L).
      { destruct (link_of_tri t (B_T t It) (HB t It)) as (a & b & F & Et). destruct (L_in2 _ _ F) as [Ia Ib].
        destruct Et as [->|[->| ->]]; cbn in V; destruct V as [->|[->|[->|[]]]]; congruence || assumption. }
      destruct (earcut_used p L N x E Ix) as (a & b & c & J & Q). exists (Tri a b c). split.
      + apply in_or_app. right. apply in_map_iff. exists (a, b, c). auto.
      + cbn. destruct Q as [->|[->| ->]]; auto.
  Qed.
End Link.
