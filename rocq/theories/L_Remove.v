(** Remove keeps the triangulation a Delaunay tiling. *)
From Coq Require Import ZArith List Bool Lia Psatz Permutation.
From Verif Require Import GoNum M_Norm M_Slice M_Geom S_Geom M_Image M_Raster S_Raster M_Delaunay S_Delaunay S_Remove
  L_Raster1 L_Raster6 L_PMap L_GMap L_Super L_Slots L_Slots2 L_Plane L_BW L_Toggle L_Count L_Insert L_Reach L_Ear L_EarLoop L_Link L_Angle L_Lookup L_Score.
Import ListNotations.
Local Open Scope Z_scope.

(* ---------------------------------------------------------------- *)
(** * Insertion sort *)
Section Sort.
  Variables (p : point) (l : list point).
  Notation less := (hull_less p).
  Hypothesis ND : NoDup l.
  Hypothesis OR : orders less l.

  (** Descending lists. *)
  Definition desc (r : list point) : Prop := forall l1 x l2 y l3, r = l1 ++ x :: l2 ++ y :: l3 -> less y x = Some true.
  Lemma desc_tl x r : desc (x :: r) -> desc r.
  Proof. intros D l1 a l2 b l3 ->. apply (D (x :: l1) a l2 b l3). reflexivity. Qed.
  Lemma desc_hd x r y : desc (x :: r) -> In y r -> less y x = Some true.
  Proof. intros D I. apply in_split in I. destruct I as (l2 & l3 & ->). apply (D [] x l2 y l3). reflexivity. Qed.
  Lemma desc_cons x r : desc r -> (forall y, In y r -> less y x = Some true) -> desc (x :: r).
  Proof.
    intros D H [|a l1] u l2 v l3 E; cbn [app] in E; injection E as -> E.
    - apply H. rewrite E. apply in_or_app. right. left. reflexivity.
    - apply (D l1 u l2 v l3). exact E.
  Qed.
  Lemma ins_ok x r : In x l -> incl r l -> ~ In x r -> desc r -> exists r', ins_back p x r = Some r' /\ Permutation (x :: r) r' /\ desc r'.
  Proof.
    intros Ix. induction r as [|y r IH]; intros IR NI D; cbn [ins_back].
    - exists [x]. split; [reflexivity|]. split; [reflexivity|]. intros [|a [|]] u l2 v l3 E; cbn in E; try discriminate; injection E as _ E; destruct l2; discriminate.
    - assert (Iy : In y l) by (apply IR; left; reflexivity). assert (NE : x <> y) by (intros ->; apply NI; left; reflexivity).
      destruct (o_total _ _ OR x y Ix Iy NE) as [[E1 E2]|[E1 E2]]; rewrite E1.
      + destruct IH as (r' & E & PE & DE).
        { intros v I. apply IR. right. exact I. } { intros I. apply NI. right. exact I. } { eapply desc_tl, D. }
        rewrite E. cbn [option_map]. exists (y :: r'). split; [reflexivity|]. split; [rewrite <- PE; apply perm_swap|]. apply desc_cons; [exact DE|].
        intros v I. eapply Permutation_in in I; [|apply Permutation_sym, PE]. destruct I as [<-|I]; [exact E1|eapply desc_hd; eauto].
      + exists (x :: y :: r). split; [reflexivity|]. split; [reflexivity|]. apply desc_cons; [exact D|]. intros v [<-|I]; [exact E2|].
        apply (o_trans _ _ OR v y x); auto. { apply IR. right. exact I. } eapply desc_hd; eauto.
  Qed.
  Lemma foldM_ins k : forall r, incl (k ++ r) l -> NoDup (k ++ r) -> desc r -> exists r', foldM (fun acc x => ins_back p x acc) k r = Some r' /\ Permutation (k ++ r) r' /\ desc r'.
  Proof.
    induction k as [|x k IH]; intros r I N D; cbn [foldM].
    - exists r. auto.
    - cbn [app] in I, N. inversion N as [|? ? N1 N2]; subst. destruct (ins_ok x r) as (r1 & E & PE & DE).
      { apply I. left. reflexivity. } { intros v J. apply I. right. apply in_or_app. auto. } { intros J. apply N1, in_or_app. auto. } { exact D. }
      rewrite E. assert (PP : Permutation (x :: k ++ r) (k ++ r1)) by (rewrite <- PE; apply Permutation_middle).
      destruct (IH r1) as (r' & E' & PE' & DE'); [|eapply Permutation_NoDup; eauto|exact DE|].
      { intros v J. apply I. eapply Permutation_in; [apply Permutation_sym, PP|exact J]. }
      exists r'. split; [exact E'|]. split; [|exact DE']. cbn [app]. rewrite PP. exact PE'.
  Qed.
End Sort.
Theorem insertion_sorts p : sorts (hull_less p) (insertion_sort p).
Proof.
  intros l ND OR. destruct (foldM_ins p l OR l []) as (r & E & PE & D).
  { rewrite app_nil_r. apply incl_refl. } { rewrite app_nil_r. exact ND. } { intros [|? ?] ? ? ? ? X; discriminate. }
  rewrite app_nil_r in PE. unfold insertion_sort. rewrite E. cbn [option_map]. exists (rev r). split; [reflexivity|]. split; [rewrite PE; apply Permutation_rev|].
  intros l1 x l2 y l3 ER. apply (D (rev l3) y (rev l2) x (rev l1)). rewrite <- (rev_involutive r), ER. rewrite !rev_app_distr. cbn [rev]. rewrite rev_app_distr. cbn [rev]. rewrite <- !app_assoc. reflexivity.
Qed.

(* ---------------------------------------------------------------- *)
(** * The hull *)
Lemma hull_add_iff p hull q v : In v (hull_add p hull q) <-> In v hull \/ (v = q /\ q <> p).
Proof.
  unfold hull_add. destruct (peq q p) eqn:E.
  - apply peq_true in E. subst q. intuition congruence.
  - apply peq_false in E. destruct (existsb (peq q) hull) eqn:X.
    + apply existsb_exists in X. destruct X as (u & I & EQ). apply peq_true in EQ. subst u. intuition congruence.
    + rewrite in_app_iff. cbn [In]. intuition congruence.
Qed.
Lemma hull_add_nodup p hull q : NoDup hull -> NoDup (hull_add p hull q).
Proof.
  intros N. unfold hull_add. destruct (peq q p); [exact N|]. destruct (existsb (peq q) hull) eqn:X; [exact N|].
  apply (Permutation_NoDup (Permutation_cons_append hull q)). constructor; [|exact N]. intros I.
  assert (existsb (peq q) hull = true) by (apply existsb_exists; exists q; split; [exact I|apply peq_true; reflexivity]). congruence.
Qed.
Lemma hull_spec p R : forall hull v, In v (fold_left (hull_add3 p) R hull) <-> In v hull \/ (v <> p /\ exists t, In t R /\ (v = d_a t \/ v = d_b t \/ v = d_c t)).
Proof.
  induction R as [|t R IH]; intros hull v; cbn [fold_left].
  - split; [auto|]. intros [H|(_ & t & [] & _)]. exact H.
  - rewrite IH. unfold hull_add3. rewrite !hull_add_iff. split.
    + intros [[[[H|[-> H]]|[-> H]]|[-> H]]|(N & u & I & H)]; auto; right; (split; [assumption|]); [exists t|exists t|exists t|exists u]; cbn; auto.
    + intros [H|(N & u & [<-|I] & H)]; auto; [|right; split; [exact N|]; exists u; auto]. left. destruct H as [->|[->| ->]]; auto.
Qed.
Lemma hull_nodup p R : forall hull, NoDup hull -> NoDup (fold_left (hull_add3 p) R hull).
Proof. induction R as [|t R IH]; intros hull N; cbn [fold_left]; [exact N|]. apply IH. unfold hull_add3. auto using hull_add_nodup. Qed.

(* ---------------------------------------------------------------- *)
(** * Order around p *)
Lemma pt_eq u v : px u = px v -> py u = py v -> u = v.
Proof. destruct u, v. cbn. intros -> ->. reflexivity. Qed.
Lemma before_round p x y z : apartp p x y -> apartp p y z -> apartp p x z -> before p x y -> before p y z -> CC p x y z.
Proof.
  intros A B C H1 H2. pose proof (bef_round _ _ _ _ _ _ A B C H1 H2) as Q. cbv zeta in Q. unfold CC, orient in *.
  destruct Q as [Q|[Q|Q]]; [left|right; left|right; right]; nia.
Qed.
Section Order.
  Variables (s : tri) (P : list point) (T B K : list tri) (p : point).
  Hypothesis HT : delaunay_tiling s P T.
  Hypothesis Hp : In p P.
  Hypothesis HBK : Permutation T (B ++ K).
  Hypothesis HB : forall t, In t B -> In p (verts t).
  Hypothesis HK : forall t, In t K -> ~ In p (verts t).

  Lemma link_apartp u u' v v' : linkE B p u u' -> linkE B p v v' -> u <> v -> apartp p u v.
  Proof.
    intros L1 L2 N. unfold apartp, apart. destruct (Z.eq_dec ((px u - px p) * (py v - py p) - (px v - px p) * (py u - py p)) 0) as [E|E]; [|left; exact E].
    right. apply Z.nle_gt. intros D. apply N. pose proof (link_pos s P T B K p HT HBK _ _ L1) as P1. 
    destruct (link_ne s P T B K p HT HBK _ _ L2) as [NV _]. destruct (link_ne s P T B K p HT HBK _ _ L1) as [NU _].
    assert (D2 : 0 < (px u - px p) * (px v - px p) + (py u - py p) * (py v - py p)).
    { destruct (Z.eq_dec ((px u - px p) * (px v - px p) + (py u - py p) * (py v - py p)) 0) as [Z0|]; [exfalso|lia].
      assert (LG : ((px u - px p) * (px u - px p) + (py u - py p) * (py u - py p)) * ((px v - px p) * (px v - px p) + (py v - py p) * (py v - py p)) = 0).
      { transitivity (((px u - px p) * (py v - py p) - (px v - px p) * (py u - py p)) * ((px u - px p) * (py v - py p) - (px v - px p) * (py u - py p)) + ((px u - px p) * (px v - px p) + (py u - py p) * (py v - py p)) * ((px u - px p) * (px v - px p) + (py u - py p) * (py v - py p))); [ring|]. rewrite E, Z0. reflexivity. }
      apply Z.mul_eq_0 in LG. destruct LG as [G|G].
      - apply NU. pose proof (Z.square_nonneg (px u - px p)). pose proof (Z.square_nonneg (py u - py p)). assert (px u - px p = 0) by nia. assert (py u - py p = 0) by nia. apply pt_eq; lia.
      - apply NV. pose proof (Z.square_nonneg (px v - px p)). pose proof (Z.square_nonneg (py v - py p)). assert (px v - px p = 0) by nia. assert (py v - py p = 0) by nia. apply pt_eq; lia. }
    destruct (link_apart s P T B K p HT HBK u u' v v' L1 L2) as [Q _]; [unfold orient; lia| |congruence].
    (* v is a positive multiple of u *)
    unfold orient in *. set (ux := px u - px p) in *. set (uy := py u - py p) in *. set (vx := px v - px p) in *. set (vy := py v - py p) in *.
    set (wx := px u' - px p) in *. set (wy := py u' - py p) in *.
    assert (ID : (ux * ux + uy * uy) * (vx * wy - vy * wx) = (ux * vx + uy * vy) * (ux * wy - uy * wx) + (ux * vy - vx * uy) * (- (ux * wx + uy * wy))) by ring.
    rewrite E in ID. assert (0 < (ux * vx + uy * vy) * (ux * wy - uy * wx)) by nia. pose proof (Z.square_nonneg ux). pose proof (Z.square_nonneg uy). nia.
  Qed.
  Variable w h : Z.
  Hypothesis HS : size_ok w h.
  Hypothesis HI : in_image w h p.
  Variable L : list point.
  Hypothesis L_link : forall v, In v L <-> exists u, linkE B p v u.
  Hypothesis L_okv : forall v, In v L -> okv w h v.
  Lemma link_orders : orders (hull_less p) L.
  Proof.
    assert (LE : forall u v, In u L -> In v L -> u <> v -> exists b, hull_less p u v = Some b /\ (b = true <-> before p u v)).
    { intros u v U V N. apply hull_less_before.
      - apply (okv_diff_p w h); auto.
      - apply (okv_diff_p w h); auto.
      - apply L_link in U. apply L_link in V. destruct U as (u' & U). destruct V as (v' & V). eapply link_apartp; eauto. }
    assert (AP : forall u v, In u L -> In v L -> u <> v -> apartp p u v).
    { intros u v U V N. apply L_link in U. apply L_link in V. destruct U as (u' & U). destruct V as (v' & V). eapply link_apartp; eauto. }
    constructor.
    - intros x y X Y N. destruct (LE x y X Y N) as (b & E & I). destruct (LE y x Y X ltac:(congruence)) as (b' & E' & I').
      rewrite E, E'. destruct (bef_total _ _ _ _ (AP x y X Y N)) as [Q|Q].
      + left. assert (b = true) by (apply I; exact Q). split; [congruence|]. f_equal. apply not_true_is_false. rewrite I'. intros Q'. exact (bef_anti _ _ _ _ Q Q').
      + right. assert (b' = true) by (apply I'; exact Q). split; [|congruence]. f_equal. apply not_true_is_false. rewrite I. intros Q'. exact (bef_anti _ _ _ _ Q Q').
    - assert (TR : forall x y, In x L -> In y L -> hull_less p x y = Some true -> before p x y).
      { intros x y X Y E. destruct (point_eq_dec x y) as [->|N].
        - exfalso. assert (NP : y <> p) by (apply L_link in Y; destruct Y as (y' & Y); apply (link_ne s P T B K p HT HBK _ _ Y)).
          pose proof (okv_diff_p w h y p HS (L_okv y Y) HI) as [X1 X2]. unfold hull_less in E. rewrite !i16_id in E by (unfold int16_range; lia). cbv zeta in E.
          rewrite Z.sub_diag, Z.ltb_irrefl, Z.gtb_ltb, Z.ltb_irrefl, !Z.geb_leb in E.
          destruct (Z.leb_spec 0 (px y - px p)), (Z.ltb_spec (px y - px p) 0); try lia; cbn [andb] in E; destruct (_ && _) in E; try discriminate; destruct (_ || _) in E; discriminate.
        - destruct (LE x y X Y N) as (b & E' & I). apply I. congruence. }
      intros x y z X Y W E1 E2. pose proof (TR x y X Y E1) as B1. pose proof (TR y z Y W E2) as B2. pose proof (bef_trans _ _ _ _ _ _ B1 B2) as B3.
      destruct (point_eq_dec x z) as [->|N]; [exfalso; exact (bef_anti _ _ _ _ B1 B2)|]. destruct (LE x z X W N) as (b & E' & I). rewrite E'. f_equal. apply I. exact B3.
  Qed.
  Lemma less_before x y : In x L -> In y L -> x <> y -> hull_less p x y = Some true -> before p x y /\ apartp p x y.
  Proof.
    intros X Y N E. assert (AP : apartp p x y) by (apply L_link in X; apply L_link in Y; destruct X as (u & U); destruct Y as (v & V); eapply link_apartp; eauto).
    split; [|exact AP]. destruct (hull_less_before p x y) as (b & E' & I); [apply (okv_diff_p w h); auto|apply (okv_diff_p w h); auto|exact AP|]. apply I. congruence.
  Qed.
End Order.

Lemma has_vertex_iff t p : has_vertex t p = true <-> In p (verts (ccw t)).
Proof. rewrite ccw_verts. unfold has_vertex. rewrite !orb_true_iff, !peq_true. intuition congruence. Qed.
Lemma delaunay_points s P P' T : (forall x, In x P <-> In x P') -> delaunay_tiling s P T -> delaunay_tiling s P' T.
Proof.
  intros H [A B C D E]. assert (HV : forall v, In v (verts s ++ P') <-> In v (verts s ++ P)) by (intros v; rewrite !in_app_iff, H; tauto).
  constructor; auto.
  - intros x I. apply B, H, I.
  - intros t v I J. apply HV. eauto.
  - intros t x I J. apply D; [exact I|]. apply HV, J.
  - intros x I. apply E, H, I.
Qed.
Lemma take_out_In p P P' : take_out p P = Some P' -> forall x, x <> p -> In x P <-> In x P'.
Proof.
  intros T x N. apply take_out_spec in T. split; intros I.
  - eapply Permutation_in in I; [|apply Permutation_sym, T]. destruct I as [E|I]; [congruence|exact I].
  - eapply Permutation_in; [exact T|]. right. exact I.
Qed.
Lemma tinc_vert t v : In v (verts t) -> tinc t v = 0.
Proof. unfold verts, tinc, incirc. cbn [In]. intros [<-|[<-|[<-|[]]]]; ring. Qed.
Lemma ccw_pos a b c : 0 < orient a b c -> ccw (new_triangle a b c) = Tri a b c.
Proof. intros H. unfold ccw, new_triangle. cbn [d_a d_b d_c]. destruct (Z.ltb_spec (orient a b c) 0); [lia|reflexivity]. Qed.

Lemma rotl_In L L' x : rotl L L' -> In x L' -> In x L.
Proof. intros (u & v & -> & ->) I. apply in_app_or in I. apply in_or_app. tauto. Qed.
Lemma earcut_verts q L N : earcut q L N -> forall a b c, In (a, b, c) N -> In a L /\ In b L /\ In c L.
Proof.
  induction 1 as [a b c|L a b c R L' N NR R1 BE R2 EC IH]; intros a0 b0 c0 I.
  - destruct I as [[= <- <- <-]|[]]. repeat split; cbn; auto.
  - destruct I as [[= <- <- <-]|I].
    + repeat split; eapply rotl_In; [exact R1|cbn; auto|exact R1|cbn; auto|exact R1|cbn; auto].
    + destruct (IH _ _ _ I) as (A & B & C).
      assert (Q : forall x, In x L' -> In x L).
      { intros x J. eapply rotl_In; [exact R1|]. eapply rotl_In in J; [|exact R2]. cbn in *. tauto. }
      auto.
Qed.

Theorem remove_change w h P d p P' sort : small_size w h -> dstate_ok w h P d -> in_image w h p -> take_out p P = Some P' ->
  sorts (hull_less p) sort -> distinct P <= 32765 ->
  exists d', remove sort d p = Some d' /\ dstate_ok w h P' d' /\ replaced (fun t => In p (verts (ccw t))) p (live (d_tris d)) (live (d_tris d')).
Proof.
  intros SM O Hp TO SO HD. pose proof (small_ok _ _ SM) as S. pose proof (small_complete w h P d p SM O Hp) as LC. unfold remove.
  pose proof (remove_point_ok (d_pmap d) P p (ds_pm _ _ _ _ O) (in_image_hashable _ _ _ S Hp)) as RP. rewrite TO in RP.
  destruct RP as (pm & -> & _ & PM). pose proof (take_out_spec _ _ _ TO) as TP.
  assert (LP : d_num d - 1 = Z.of_nat (length P')) by (rewrite (ds_num _ _ _ _ O); apply Permutation_length in TP; cbn [length] in TP; lia).
  assert (DP : distinct P = distinct (p :: P')) by (apply distinct_perm; apply Permutation_sym, TP). rewrite distinct_cons in DP.
  assert (IN' : forall q, In q P' -> in_image w h q) by (intros q I; apply (ds_in _ _ _ _ O); eapply Permutation_in; [exact TP|right; exact I]).
  assert (IPp : In p P) by (eapply Permutation_in; [exact TP|left; reflexivity]).
  pose proof (ds_unique _ _ _ _ O) as DU. fold (distinct P) in DU.
  destruct (Z.eqb_spec (mult P' p) 0) as [M0|M0]; cbn [negb].
  2: { eexists. split; [reflexivity|]. assert (I : In p P') by (apply (count_occ_In point_eq_dec); unfold mult in M0; lia).
       split; [|exists [], [], (live (d_tris d)); cbn [d_tris app]; split; [apply Permutation_refl|]; split; [apply Permutation_refl|]; split; [intros t []|intros t v []]].
       constructor; cbn [d_tris d_grid d_pmap d_free d_super d_num d_unique]; try apply O; auto.
       - eapply delaunay_points; [|apply O]. intros x. destruct (point_eq_dec x p) as [->|N]; [tauto|apply (take_out_In _ _ _ TO x N)].
       - rewrite DU. fold (distinct P'). destruct (in_dec point_eq_dec p P'); [exact DP|contradiction]. }
  assert (NI : ~ In p P') by (intros I; apply (count_occ_In point_eq_dec) in I; unfold mult in M0; lia).
  unfold remove_star. pose proof (point_cell_range w h (d_grid d) p S (ds_geo _ _ _ _ O) Hp) as [CX CY].
  unfold group. destruct (point_cell (d_grid d) p) as [x y] eqn:EC. cbn [fst snd] in CX, CY.
  destruct (cell_Some 10 (d_grid d) x y (s_shape _ _ _ _ (ds_slots _ _ _ _ O)) CX CY) as (l & El). rewrite El, vertex_rm.
  destruct (rm_loop_ok 10 false (fun t => has_vertex t p) (hull_add3 p) (x, y) (length l) 0 (d_tris d) (d_grid d) (d_free d) [] l
     (ds_slots _ _ _ _ O) El eq_refl ltac:(intros; lia)) as (tris & g & free & R & -> & S1 & G1 & PR & HR & HL & _).
  set (B := map ccw R). set (K := map ccw (live tris)). set (hull := fold_left (hull_add3 p) R []).
  assert (HBK : Permutation (map ccw (live (d_tris d))) (B ++ K)) by (unfold B, K; rewrite <- map_app; apply Permutation_map, PR).
  assert (RL : forall t, In t R -> In t (live (d_tris d))) by (intros t I; eapply Permutation_in; [apply Permutation_sym, PR|apply in_or_app; auto]).
  assert (HB : forall t, In t B -> In p (verts t)).
  { intros t I. apply in_map_iff in I. destruct I as (u & <- & I). apply has_vertex_iff. apply (HR u I). }
  assert (HK : forall t, In t K -> ~ In p (verts t)).
  { intros t I V. apply in_map_iff in I. destruct I as (u & <- & I).
    assert (Iu : In u (live (d_tris d))) by (eapply Permutation_in; [apply Permutation_sym, PR|apply in_or_app; right; exact I]).
    pose proof (LC u Iu ltac:(rewrite tinc_vert by exact V; lia)) as J. rewrite EC in J. specialize (HL u I J). cbn beta in HL.
    apply has_vertex_iff in V. congruence. }
  pose proof (ds_del _ _ _ _ O) as DT.
  assert (H_link : forall v, In v hull <-> exists u, linkE B p v u).
  { intros v. unfold hull. rewrite hull_spec. split.
    - intros [[]|(N & t & I & E)]. assert (It : In (ccw t) (map ccw (live (d_tris d)))) by (apply in_map, RL, I).
      destruct (link_of_tri _ B K p HBK HK (ccw t) It) as (a & b & LE & ET); [apply has_vertex_iff, (HR t I)|].
      apply ccw_verts in E. assert (V : v = a \/ v = b) by (destruct ET as [ET|[ET|ET]]; rewrite ET in E; cbn in E; intuition congruence).
      destruct V as [->| ->]; [eauto|]. eapply link_succ; eauto.
    - intros (u & LE). right. split; [apply (link_ne (sup w h) P _ B K p DT HBK _ _ LE)|]. destruct LE as (t & I & E). apply in_map_iff in I. destruct I as (t0 & <- & I).
      exists t0. split; [exact I|]. apply ccw_verts. destruct E as [->|[->| ->]]; cbn; auto. }
  assert (H_okv : forall v, In v hull -> okv w h v).
  { intros v I. unfold hull in I. apply hull_spec in I. destruct I as [[]|(_ & t & I & E)]. destruct (ds_corners w h P d t O (RL t I)) as (C1 & C2 & C3).
    destruct E as [->|[->| ->]]; assumption. }
  assert (H_nd : NoDup hull) by (apply hull_nodup; constructor).
  destruct (SO hull H_nd) as (L & -> & PL & HO).
  { eapply (link_orders (sup w h) P _ B K p); eauto. }
  assert (L_link : forall v, In v L <-> exists u, linkE B p v u).
  { intros v. rewrite <- H_link. split; apply Permutation_in; [apply Permutation_sym|]; exact PL. }
  assert (L_okv : forall v, In v L -> okv w h v) by (intros v I; apply H_okv; eapply Permutation_in; [apply Permutation_sym, PL|exact I]).
  assert (L_nd : NoDup L) by (eapply Permutation_NoDup; eauto).
  assert (L_order : forall l1 x l2 y l3 z l4, L = l1 ++ x :: l2 ++ y :: l3 ++ z :: l4 -> CC p x y z).
  { intros l1 a l2 b l3 c l4 EL.
    assert (Ia : In a L) by (rewrite EL; apply in_or_app; right; left; reflexivity).
    assert (Ib : In b L) by (rewrite EL; apply in_or_app; right; right; apply in_or_app; right; left; reflexivity).
    assert (Ic : In c L) by (rewrite EL; apply in_or_app; right; right; apply in_or_app; right; right; apply in_or_app; right; left; reflexivity).
    pose proof (HO l1 a l2 b (l3 ++ c :: l4) EL) as E1.
    pose proof (HO l1 a (l2 ++ b :: l3) c l4 ltac:(rewrite EL, <- app_assoc; reflexivity)) as E3.
    pose proof (HO (l1 ++ a :: l2) b l3 c l4 ltac:(rewrite EL, <- app_assoc; reflexivity)) as E2.
    assert (ND3 : a <> b /\ b <> c /\ a <> c).
    { rewrite EL in L_nd. apply NoDup_remove_2 in L_nd as N1. repeat split; intros ->.
      - apply N1. apply in_or_app. right. apply in_or_app. right. left. reflexivity.
      - replace (l1 ++ a :: l2 ++ c :: l3 ++ c :: l4) with ((l1 ++ a :: l2) ++ c :: l3 ++ c :: l4) in L_nd by (rewrite <- app_assoc; reflexivity).
        apply NoDup_remove_2 in L_nd. apply L_nd. apply in_or_app. right. apply in_or_app. right. left. reflexivity.
      - apply N1. apply in_or_app. right. apply in_or_app. right. right. apply in_or_app. right. left. reflexivity. }
    destruct ND3 as (N1 & N2 & N3).
    destruct (less_before (sup w h) P _ B K p DT HBK w h S Hp L L_link L_okv a b Ia Ib N1 E1) as [B1 A1].
    destruct (less_before (sup w h) P _ B K p DT HBK w h S Hp L L_link L_okv b c Ib Ic N2 E2) as [B2 A2].
    destruct (less_before (sup w h) P _ B K p DT HBK w h S Hp L L_link L_okv a c Ia Ic N3 E3) as [B3 A3].
    apply before_round; assumption. }
  pose proof (L_three (sup w h) P _ B K p DT IPp HBK HB HK L L_link) as L3.
  destruct (ear_loop_cut gap_size p (Datatypes.S (length L)) L ltac:(lia) L_nd (small_scores w h p L SM Hp L_okv)) as (N & -> & ECUT).
  pose proof (remove_delaunay (sup w h) P _ B K p DT IPp HBK HB HK L L_link L_nd L_order P' N ECUT) as RD.
  assert (PS : forall z, In z P' <-> In z P /\ z <> p).
  { intros z. split.
    - intros I. split; [eapply Permutation_in; [exact TP|right; exact I]|]. intros ->. contradiction.
    - intros [I NE]. apply (take_out_In _ _ _ TO z NE), I. }
  specialize (RD PS). rewrite add_triangles_add1. set (news := map _ N).
  assert (PN : forall a b c, In (a, b, c) N -> 0 < orient a b c /\ okv w h a).
  { intros a b c I. assert (IT : In (Tri a b c) (K ++ map tri3 N)) by (apply in_or_app; right; apply in_map_iff; exists (a, b, c); auto). split.
    - pose proof (t_pos _ _ (dt_tiling _ _ _ RD)) as Q. rewrite Forall_forall in Q. apply (Q _ IT).
    - eapply okv_list; [exact IN'|]. apply (dt_verts _ _ _ RD _ a IT). cbn. auto. }
  assert (CN : map ccw news = map tri3 N).
  { unfold news. rewrite map_map. apply map_ext_in. intros [[a b] c] I. apply ccw_pos, (PN a b c I). }
  assert (D' : distinct P' = distinct P - 1) by (destruct (in_dec point_eq_dec p P'); [contradiction|lia]).
  assert (LEN : Z.of_nat (length (live tris)) + Z.of_nat (length news) <= 65536).
  { pose proof (delaunay_count _ _ _ _ RD) as Q. rewrite app_length, <- CN in Q. unfold K in Q. rewrite !map_length in Q. lia. }
  destruct (add_list_ok 10 news tris g free S1) as (tris' & g' & free' & E2 & S2 & G2 & P2).
  { intros t I. apply in_map_iff in I. destruct I as ([[a b] c] & <- & I). unfold is_freed, new_triangle. cbn [d_a]. apply Z.eqb_neq.
    eapply okv_not_freed; [exact S|apply (PN a b c I)]. }
  { exact LEN. }
  unfold add1. rewrite E2.
  eexists. split; [reflexivity|]. split.
  2: { exists R, news, (live tris). cbn [d_tris]. split; [exact PR|]. split; [exact P2|]. split.
       - intros t I. apply HB. apply in_map. exact I.
       - intros t v I V. right. apply in_map_iff in I. destruct I as ([[a b] c] & <- & I). apply ccw_verts in V. unfold new_triangle in V. cbn [d_a d_b d_c] in V.
         destruct (earcut_verts _ _ _ ECUT _ _ _ I) as (Ea & Eb & Ec).
         assert (IL : In v hull) by (eapply Permutation_in; [apply Permutation_sym, PL|]; destruct V as [->|[->| ->]]; assumption).
         unfold hull in IL. apply hull_spec in IL. destruct IL as [[]|(_ & t & It & Et)]. exists t. split; [exact It|apply ccw_verts; exact Et]. }
  constructor; cbn [d_tris d_grid d_pmap d_free d_super d_num d_unique].
  - exact S2.
  - eapply geo_same; [|exact G2]. eapply geo_same; [|exact G1]. apply O.
  - eapply delaunay_perm; [|exact RD]. apply Permutation_sym. etransitivity; [apply Permutation_map, P2|]. rewrite map_app, CN. apply Permutation_app_comm.
  - exact IN'.
  - intros t I. eapply Permutation_in in I; [|exact P2]. apply in_app_or in I. destruct I as [I|I].
    + apply in_map_iff in I. destruct I as ([[a b] c] & <- & _). reflexivity.
    + apply (ds_own _ _ _ _ O). eapply Permutation_in; [apply Permutation_sym, PR|apply in_or_app; right; exact I].
  - exact PM.
  - exact LP.
  - rewrite DU. fold (distinct P'). lia.
  - apply O.
Qed.

Theorem remove_ok w h P d p P' sort : small_size w h -> dstate_ok w h P d -> in_image w h p -> take_out p P = Some P' ->
  sorts (hull_less p) sort -> distinct P <= 32765 ->
  exists d', remove sort d p = Some d' /\ dstate_ok w h P' d'.
Proof. intros SM O Hp TO SO HD. destruct (remove_change w h P d p P' sort SM O Hp TO SO HD) as (d' & E & O' & _). eauto. Qed.
