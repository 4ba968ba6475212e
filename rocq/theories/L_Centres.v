(** The circumcentres collected for a point are the vertices of its Voronoi cell. *)
From Coq Require Import ZArith Reals List Bool Lia Lra Psatz Permutation.
From Flocq Require Import Core IEEE754.BinarySingleNaN.
From Verif Require Import GoNum FloatLemmas L_F32 M_Norm M_Slice M_Geom S_Geom M_Image M_Raster S_Raster M_Delaunay S_Delaunay M_Voronoi S_Voronoi
  L_Image L_Raster1 L_Raster6 L_PMap L_GMap L_Super L_Slots L_Slots2 L_Plane L_BW L_Toggle L_Count L_Insert L_Circle L_Hist L_Lookup L_Score L_Remove L_VorGeo.
Import ListNotations.
Local Open Scope Z_scope.

(* ---------------------------------------------------------------- *)
(** * The look-ups *)
Lemma iter_vertex_spec tris p l : (forall i, In i l -> exists t, znth tris i = Some t) ->
  exists r, iter_vertex_loop tris p l = Some r /\ forall i, In i r <-> In i l /\ exists t, znth tris i = Some t /\ has_vertex t p = true.
Proof.
  induction l as [|i l IH]; intros H; cbn [iter_vertex_loop].
  - exists []. split; [reflexivity|]. intros i. cbn. tauto.
  - destruct (H i (or_introl eq_refl)) as (t & Et). rewrite Et. destruct IH as (r & -> & Hr); [intros j J; apply H; right; exact J|].
    eexists. split; [reflexivity|]. intros j. destruct (has_vertex t p) eqn:V; cbn [In]; rewrite Hr.
    + split; [intros [<-|[A B]]; eauto|intros [[<-|A] B]; auto].
    + split; [intros [A B]; auto|]. intros [[<-|A] B]; [|auto]. exfalso. destruct B as (u & Eu & V2). rewrite Et in Eu. injection Eu as <-. congruence.
Qed.
Lemma iter_contain_spec tris p l : (forall i, In i l -> exists t, znth tris i = Some t /\ is_freed t = false) ->
  exists r, iter_contain_loop tris p l = Some r /\ forall i, In i r <-> In i l /\ exists t, znth tris i = Some t /\ contains_point t p = true.
Proof.
  induction l as [|i l IH]; intros H; cbn [iter_contain_loop].
  - exists []. split; [reflexivity|]. intros i. cbn. tauto.
  - destruct (H i (or_introl eq_refl)) as (t & Et & Ft). rewrite Et, Ft. destruct IH as (r & -> & Hr); [intros j J; apply H; right; exact J|].
    eexists. split; [reflexivity|]. intros j. destruct (contains_point t p) eqn:V; cbn [In]; rewrite Hr.
    + split; [intros [<-|[A B]]; eauto|intros [[<-|A] B]; auto].
    + split; [intros [A B]; auto|]. intros [[<-|A] B]; [|auto]. exfalso. destruct B as (u & Eu & V2). rewrite Et in Eu. injection Eu as <-. congruence.
Qed.

Lemma group_ok w h P d p : size_ok w h -> dstate_ok w h P d -> in_image w h p -> exists l, group (d_grid d) p = Some l /\
  forall i, In i l <-> exists t, znth (d_tris d) i = Some t /\ is_freed t = false /\ In (point_cell (d_grid d) p) (box_cells (d_grid d) (d_circ t)).
Proof.
  intros S O Hp. unfold group. pose proof (point_cell_range w h _ p S (ds_geo _ _ _ _ O) Hp) as Rg.
  destruct (point_cell (d_grid d) p) as [x y]. cbn [fst snd] in Rg.
  destruct (cell_Some 10 (d_grid d) x y) as (l & El); [apply (s_shape _ _ _ _ (ds_slots _ _ _ _ O))|lia|lia|].
  exists l. split; [exact El|]. intros i. apply (s_cell _ _ _ _ (ds_slots _ _ _ _ O) x y l i El).
Qed.

Lemma with_vertex_ok w h P d p : small_size w h -> dstate_ok w h P d -> in_image w h p ->
  exists r, iter_with_vertex (d_grid d) p (d_tris d) = Some r /\
    forall i, In i r <-> exists t, znth (d_tris d) i = Some t /\ is_freed t = false /\ In p (verts (ccw t)).
Proof.
  intros SM O Hp. pose proof (small_ok _ _ SM) as S. pose proof (small_complete w h P d p SM O Hp) as LC.
  destruct (group_ok w h P d p S O Hp) as (l & El & Hl). unfold iter_with_vertex. rewrite El.
  destruct (iter_vertex_spec (d_tris d) p l) as (r & -> & Hr); [intros i I; apply Hl in I; destruct I as (t & Et & _); eauto|].
  exists r. split; [reflexivity|]. intros i. rewrite Hr. split.
  - intros [I (t & Et & V)]. apply Hl in I. destruct I as (u & Eu & Fu & _). rewrite Et in Eu. injection Eu as <-. exists t. rewrite <- has_vertex_iff. auto.
  - intros (t & Et & Ft & V). split; [|exists t; rewrite has_vertex_iff; auto]. apply Hl. exists t. split; [exact Et|]. split; [exact Ft|].
    apply LC; [apply live_In; split; [eapply znth_In; exact Et|exact Ft]|]. rewrite tinc_vert by exact V. lia.
Qed.

Lemma circles_ok w h P d p : small_size w h -> dstate_ok w h P d -> in_image w h p ->
  exists r, iter_circles_containing (d_grid d) p (d_tris d) = Some r /\
    forall i, In i r <-> exists t, znth (d_tris d) i = Some t /\ is_freed t = false /\ 0 <= tinc (ccw t) p.
Proof.
  intros SM O Hp. pose proof (small_ok _ _ SM) as S. pose proof (small_complete w h P d p SM O Hp) as LC.
  destruct (group_ok w h P d p S O Hp) as (l & El & Hl). unfold iter_circles_containing. rewrite El.
  destruct (iter_contain_spec (d_tris d) p l) as (r & -> & Hr); [intros i I; apply Hl in I; destruct I as (t & Et & Ft & _); eauto|].
  assert (CE : forall t, In t (live (d_tris d)) -> contains_point t p = (0 <=? tinc (ccw t) p)).
  { intros t I. apply (contains_exact w h); [exact S|eapply ds_corners; eauto|exact Hp]. }
  assert (LI : forall i t, znth (d_tris d) i = Some t -> is_freed t = false -> In t (live (d_tris d))) by (intros i t Et Ft; apply live_In; split; [eapply znth_In; exact Et|exact Ft]).
  exists r. split; [reflexivity|]. intros i. rewrite Hr. split.
  - intros [I (t & Et & V)]. apply Hl in I. destruct I as (u & Eu & Fu & _). rewrite Et in Eu. injection Eu as <-. exists t.
    rewrite CE in V by eauto. apply Z.leb_le in V. auto.
  - intros (t & Et & Ft & V). split; [|exists t; rewrite CE by eauto; split; [exact Et|apply Z.leb_le; exact V]]. apply Hl. exists t. split; [exact Et|]. split; [exact Ft|].
    apply LC; eauto.
Qed.

(* ---------------------------------------------------------------- *)
(** * The floats *)
Lemma rounded_eq r : rounded r = rnd32 (rnd r). Proof. reflexivity. Qed.

Lemma quot_float n g X : (Z.abs n <= 2 ^ 53)%Z -> (Z.abs g <= 2 ^ 53)%Z -> g <> 0%Z -> (X = IZR n / IZR g)%R -> (- 8190 <= X <= 8750)%R ->
  fin (f64_of_f32 (f32_of_f64 (fdiv (f64_of_Z n) (f64_of_Z g)))) /\ R64 (f64_of_f32 (f32_of_f64 (fdiv (f64_of_Z n) (f64_of_Z g)))) = rounded X.
Proof.
  intros Hn Hg G0 EX BX. destruct (centre_float n g X Hn Hg G0 EX BX) as [_ Bd].
  destruct (of_Z_R n Hn) as [F1 E1]. destruct (of_Z_R g Hg) as [F2 E2].
  destruct (fdiv_R _ _ F1 F2) as [F E].
  - rewrite E2. apply IZR_neq. exact G0.
  - rewrite E1, E2, <- EX. apply big_1023. apply Rabs_le. lra.
  - destruct (f32_of_f64_R _ F) as [F3 E3].
    + apply big_127. apply Rabs_le. assert (Q : (e40 <= 1)%R) by (unfold e40; lra). split; lra.
    + destruct (f64_of_f32_R _ F3) as [F4 E4]. split; [exact F4|]. rewrite E4, E3, E, E1, E2, <- EX. reflexivity.
Qed.

Lemma sdist2_scale k X Y M v : sdist2 (k * X) (k * Y) (k * M) v = k * k * sdist2 X Y M v.
Proof. unfold sdist2. ring. Qed.
Lemma quot_scale k X M : k <> 0 -> M <> 0 -> (IZR (k * X) / IZR (k * M) = IZR X / IZR M)%R.
Proof. intros K H. rewrite !mult_IZR. field. split; apply IZR_neq; assumption. Qed.

Lemma centred_ccw t X Y M : 0 < M -> sdist2 X Y M (d_b t) = sdist2 X Y M (d_a t) -> sdist2 X Y M (d_c t) = sdist2 X Y M (d_a t) -> centred (ccw t) X Y M.
Proof. intros H B C. unfold centred, ccw. destruct (_ <? 0); cbn [ta tb tc]; repeat split; congruence. Qed.

Lemma centre_spec w h P d t p : small_size w h -> dstate_ok w h P d -> In t (live (d_tris d)) -> In p (verts (ccw t)) -> in_image w h p ->
  exists X Y M, centred (ccw t) X Y M /\ at_rounded (centre_of t) X Y M.
Proof.
  intros S O It Vp Hp. destruct (ds_corners _ _ _ _ _ O It) as (Ca & Cb & Cc). pose proof (live_pos _ _ _ _ _ O It) as Pt.
  unfold centre_of. rewrite (ds_own _ _ _ _ O t It).
  assert (Ho : orient (d_a t) (d_b t) (d_c t) <> 0%Z).
  { revert Pt. unfold pos, ccw. destruct (_ <? 0)%Z eqn:Q; cbn [ta tb tc]; [apply Z.ltb_lt in Q; lia|lia]. }
  rewrite (calc_exact w h (d_a t) (d_b t) (d_c t) S Ca Cb Cc). cbn [cc_x cc_y].
  set (a := d_a t) in *. set (b := d_b t) in *. set (c := d_c t) in *.
  pose proof (equi_b a b c) as EB. pose proof (equi_c a b c) as EC. pose proof (sizes w h a b c S Ca Cb Cc) as (_ & _ & _ & _ & _ & _ & QG & QX & QY). cbv zeta in EB, EC.
  pose proof (G_orient a b c) as EG.
  match type of EB with sdist2 ?x ?y ?g _ = _ => set (NX := x) in *; set (NY := y) in *; set (G := g) in * end.
  assert (GN0 : G <> 0%Z) by lia.
  assert (GN : (0 < G * G)%Z) by nia.
  assert (K : forall q, exists k, (0 < k /\ G * G * tinc (ccw t) q = (sdist2 NX NY G a - sdist2 NX NY G q) * k)%Z).
  { intros q. revert Pt. unfold pos, tinc, ccw. fold a b c. destruct (_ <? 0)%Z eqn:Q; cbn [ta tb tc]; intros Pt.
    - exists (orient b a c). split; [exact Pt|]. rewrite <- EB. apply circle_identity; congruence.
    - exists (orient a b c). split; [exact Pt|]. apply circle_identity; assumption. }
  assert (HS : forall s, In s (verts (sup w h)) -> (tinc (ccw t) s <= 0)%Z).
  { intros s Is. apply (dt_empty _ _ _ (ds_del _ _ _ _ O)); [apply in_map; exact It|]. apply in_or_app. left. exact Is. }
  destruct (found_bounds w h a b c p S Hp) as (BX & BY & _ & _).
  { apply D2_le; [exact Ho|]. fold NX NY G. destruct (K p) as (k & Pk & E). rewrite tinc_vert in E by exact Vp. nia. }
  { intros s Is. apply D2_le; [exact Ho|]. fold NX NY G. destruct (K s) as (k & Pk & E). pose proof (HS s Is). nia. }
  fold NX NY G in BX, BY.
  destruct (quot_float NX G (IZR NX / IZR G)) as [F1 E1]; [eapply Z.le_trans; [exact QX|discriminate]|eapply Z.le_trans; [exact QG|discriminate]|exact GN0|reflexivity|exact BX|].
  destruct (quot_float NY G (IZR NY / IZR G)) as [F2 E2]; [eapply Z.le_trans; [exact QY|discriminate]|eapply Z.le_trans; [exact QG|discriminate]|exact GN0|reflexivity|lra|].
  exists (G * NX), (G * NY), (G * G). split.
  - apply centred_ccw; [exact GN|rewrite !sdist2_scale; fold a b c; congruence..].
  - unfold at_rounded. cbn [nx ny]. rewrite !quot_scale by exact GN0. repeat split; assumption.
Qed.

Lemma same_quot X M X' M' : 0 < M -> 0 < M' -> M * X' = M' * X -> (IZR X' / IZR M' = IZR X / IZR M)%R.
Proof.
  intros H H' E. assert (IZR M <> 0)%R by (apply IZR_neq; lia). assert (IZR M' <> 0)%R by (apply IZR_neq; lia).
  apply (f_equal IZR) in E. rewrite !mult_IZR in E. field_simplify_eq; [lra|split; assumption].
Qed.
Lemma at_rounded_same c X Y M X' Y' M' : 0 < M -> 0 < M' -> M * X' = M' * X -> M * Y' = M' * Y -> at_rounded c X' Y' M' -> at_rounded c X Y M.
Proof.
  intros H H' EX EY (F1 & F2 & E1 & E2). rewrite (same_quot X M X' M') in E1 by assumption. rewrite (same_quot Y M Y' M') in E2 by assumption.
  repeat split; assumption.
Qed.

(* ---------------------------------------------------------------- *)
(** * The centres *)
Lemma far_super w h : verts (sup w h) = far_points w h.
Proof. reflexivity. Qed.

Lemma mapM_In {A B} (f : A -> option B) l bs : mapM f l = Some bs -> forall b, In b bs <-> exists a, In a l /\ f a = Some b.
Proof.
  revert bs. induction l as [|a l IH]; cbn; intros bs E b.
  - injection E as <-. split; [intros []|intros (a & [] & _)].
  - destruct (f a) as [y|] eqn:Ea; [|discriminate]. destruct (mapM f l) as [ys|] eqn:El; [|discriminate]. injection E as <-.
    cbn [In]. rewrite (IH ys eq_refl b). split.
    + intros [<-|(x & I & Ex)]; eauto.
    + intros (x & [<-|I] & Ex); [left; congruence|right; eauto].
Qed.

Theorem centres_ok w h P d p : small_size w h -> dstate_ok w h P d -> In p P ->
  exists cs, centres d p = Some cs /\ describes (far_points w h ++ P) p cs.
Proof.
  intros S O Ip. pose proof (ds_in _ _ _ _ O p Ip) as Hp. destruct (with_vertex_ok w h P d p S O Hp) as (l & El & Hl).
  unfold centres. rewrite El.
  destruct (mapM_Some (fun i => option_map centre_of (znth (d_tris d) i)) l) as (cs & Ec).
  { intros i I. apply Hl in I. destruct I as (t & -> & _). discriminate. }
  exists cs. split; [exact Ec|]. pose proof (mapM_In _ _ _ Ec) as MI. cbn beta in MI. pose proof (ds_del _ _ _ _ O) as DT. rewrite <- far_super.
  split.
  - intros c Ic. apply MI in Ic. destruct Ic as (i & Ii & Ei). apply Hl in Ii. destruct Ii as (t & Et & Ft & Vt). rewrite Et in Ei. injection Ei as <-.
    assert (It : In t (live (d_tris d))) by (apply live_In; split; [eapply znth_In; exact Et|exact Ft]).
    destruct (centre_spec w h P d t p S O It Vt Hp) as (X & Y & M & C & A). exists X, Y, M. split; [|exact A].
    eapply triangle_vertex; eauto. apply in_map. exact It.
  - intros X Y M VV. pose proof (proj1 VV) as HM. destruct (vertex_triangle _ _ _ p X Y M DT (sup_inner w h p (small_ok _ _ S) Hp) VV) as (t0 & I0 & V0 & U).
    apply in_map_iff in I0. destruct I0 as (t & <- & It). destruct (centre_spec w h P d t p S O It V0 Hp) as (X' & Y' & M' & C & A).
    destruct (U X' Y' M' C) as [U1 U2]. exists (centre_of t). split.
    + apply MI. apply live_znth in It. destruct It as (i & Ei & Fi). exists i. split; [apply Hl; exists t; auto|]. rewrite Ei. reflexivity.
    + eapply at_rounded_same; [exact HM|exact (proj1 C)|exact U1|exact U2|exact A].
Qed.

(* ---------------------------------------------------------------- *)
(** * The auxiliary points are far away *)
Lemma far_away w h q s X Y M : 1 <= w -> 1 <= h -> 4 <= Z.max w h -> in_image w h q -> In s (far_points w h) -> 0 < M -> 0 <= X <= M * w -> 0 <= Y <= M * h ->
  sdist2 X Y M q < sdist2 X Y M s.
Proof.
  intros Hw Hh Hm [Q1 Q2] Is HM HX HY.
  assert (ID : sdist2 X Y M s - sdist2 X Y M q = M * ((M * (px s * px s - px q * px q) + 2 * X * (px q - px s)) + (M * (py s * py s - py q * py q) + 2 * Y * (py q - py s)))) by (unfold sdist2; ring).
  enough (0 < (M * (px s * px s - px q * px q) + 2 * X * (px q - px s)) + (M * (py s * py s - py q * py q) + 2 * Y * (py q - py s))) by nia.
  pose proof (half_bounds w Hw) as BW. pose proof (half_bounds h Hh) as BH. set (m := Z.max w h) in *. 
  assert (W : w <= m /\ h <= m) by (unfold m; lia). clear ID.
  (* the affine bound in one coordinate *)
  assert (L0 : forall x u s0 n, 0 <= x <= M * n -> 0 <= u <= n -> s0 <= 0 -> M * (s0 * s0 - n * n) <= M * (s0 * s0 - u * u) + 2 * x * (u - s0)).
  { intros x u s0 n Hx Hu Hs. assert (0 <= x * (u - s0)) by (apply Z.mul_nonneg_nonneg; lia). assert (M * (u * u) <= M * (n * n)) by (apply Z.mul_le_mono_nonneg_l; [lia|apply Z.mul_le_mono_nonneg; lia]). lia. }
  assert (L1 : forall x u s0 n, 0 <= x <= M * n -> 0 <= u <= n -> n <= s0 -> M * ((s0 - n) * (s0 - n) - n * n) <= M * (s0 * s0 - u * u) + 2 * x * (u - s0)).
  { intros x u s0 n Hx Hu Hs. pose proof (L0 (M * n - x) (n - u) (n - s0) n ltac:(lia) ltac:(lia) ltac:(lia)) as Q.
    replace ((n - s0) * (n - s0)) with ((s0 - n) * (s0 - n)) in Q by ring.
    replace (M * ((s0 - n) * (s0 - n) - (n - u) * (n - u)) + 2 * (M * n - x) * (n - u - (n - s0))) with (M * (s0 * s0 - u * u) + 2 * x * (u - s0)) in Q by ring. exact Q. }
  assert (L2 : forall x u s0 n k, 0 <= x <= M * n -> 0 <= u <= n -> 0 <= s0 <= n -> 0 <= k -> k <= s0 -> k <= n - s0 -> M * (k * k - n * n) <= M * (s0 * s0 - u * u) + 2 * x * (u - s0)).
  { intros x u s0 n k Hx Hu Hs Hk K1 K2. destruct (Z_le_gt_dec s0 u) as [C|C].
    - assert (0 <= x * (u - s0)) by (apply Z.mul_nonneg_nonneg; lia). assert (M * (u * u) <= M * (n * n)) by (apply Z.mul_le_mono_nonneg_l; [lia|apply Z.mul_le_mono_nonneg; lia]).
      assert (M * (k * k) <= M * (s0 * s0)) by (apply Z.mul_le_mono_nonneg_l; [lia|apply Z.mul_le_mono_nonneg; lia]). lia.
    - assert (A : (M * n - x) * (s0 - u) >= 0) by (apply Z.le_ge, Z.mul_nonneg_nonneg; lia).
      assert (B : M * ((n - u) * (n - u)) <= M * (n * n)) by (apply Z.mul_le_mono_nonneg_l; [lia|apply Z.mul_le_mono_nonneg; lia]).
      assert (D : M * (k * k) <= M * ((n - s0) * (n - s0))) by (apply Z.mul_le_mono_nonneg_l; [lia|apply Z.mul_le_mono_nonneg; lia]).
      replace (M * (s0 * s0 - u * u) + 2 * x * (u - s0)) with (M * ((n - s0) * (n - s0)) - M * ((n - u) * (n - u)) + 2 * ((M * n - x) * (s0 - u))) by ring. lia. }
  assert (SQ : forall a b, 0 <= a <= b -> a * a <= b * b) by (intros a b H; apply Z.mul_le_mono_nonneg; lia).
  pose proof (SQ w m ltac:(lia)) as SW. pose proof (SQ h m ltac:(lia)) as SH.
  unfold far_points in Is. fold m in Is. cbv zeta in Is. destruct Is as [<-|[<-|[<-|[]]]]; cbn [px py].
  - eapply Z.lt_le_trans; [|apply Z.add_le_mono; [apply (L0 X (px q) _ w)|apply (L0 Y (py q) _ h)]]; try lia.
    rewrite <- Z.mul_add_distr_l. apply Z.mul_pos_pos; [exact HM|].
    set (xx := (w + 1) / 2) in *. set (yy := (h + 1) / 2) in *. assert (A1 : 3 * m - 1 <= 2 * (2 * m - xx)) by lia. assert (A2 : m - 1 <= 2 * (m - yy)) by lia.
    pose proof (SQ (3 * m - 1) (2 * (2 * m - xx)) ltac:(lia)). pose proof (SQ (m - 1) (2 * (m - yy)) ltac:(lia)).
    replace ((xx - 2 * m) * (xx - 2 * m)) with ((2 * m - xx) * (2 * m - xx)) by ring. replace ((yy - m) * (yy - m)) with ((m - yy) * (m - yy)) by ring.
    assert (4 * m <= m * m) by (apply Z.mul_le_mono_nonneg_r; lia). lia.
  - eapply Z.lt_le_trans; [|apply Z.add_le_mono; [apply (L1 X (px q) _ w)|apply (L0 Y (py q) _ h)]]; try lia.
    rewrite <- Z.mul_add_distr_l. apply Z.mul_pos_pos; [exact HM|].
    set (xx := (w + 1) / 2) in *. set (yy := (h + 1) / 2) in *. assert (A1 : 3 * m - 1 <= 2 * (xx + 2 * m - w)) by lia. assert (A2 : m - 1 <= 2 * (m - yy)) by lia.
    pose proof (SQ (3 * m - 1) (2 * (xx + 2 * m - w)) ltac:(lia)). pose proof (SQ (m - 1) (2 * (m - yy)) ltac:(lia)).
    replace ((yy - m) * (yy - m)) with ((m - yy) * (m - yy)) by ring.
    assert (4 * m <= m * m) by (apply Z.mul_le_mono_nonneg_r; lia). lia.
  - eapply Z.lt_le_trans; [|apply Z.add_le_mono; [apply (L2 X (px q) _ w (w - (w + 1) / 2))|apply (L1 Y (py q) _ h)]]; try lia.
    rewrite <- Z.mul_add_distr_l. apply Z.mul_pos_pos; [exact HM|].
    set (xx := (w + 1) / 2) in *. set (yy := (h + 1) / 2) in *. assert (A1 : 3 * m <= 2 * (yy + 2 * m - h)) by lia. assert (A2 : w - 1 <= 2 * (w - xx)) by lia.
    pose proof (SQ (3 * m) (2 * (yy + 2 * m - h)) ltac:(lia)). pose proof (SQ (w - 1) (2 * (w - xx)) ltac:(lia)).
    assert (4 * m <= m * m) by (apply Z.mul_le_mono_nonneg_r; lia).
    destruct (Z_le_gt_dec w 1); [assert (w = 1) by lia; subst w; lia|].
    nia.
Qed.

(** Inside the image the diagram of the sites is the diagram of the points. *)
Theorem image_vertices w h P p X Y M : 1 <= w -> 1 <= h -> 4 <= Z.max w h -> (forall q, In q P -> in_image w h q) -> In p P ->
  0 < M -> 0 <= X <= M * w -> 0 <= Y <= M * h ->
  voronoi_vertex (far_points w h ++ P) p X Y M <-> voronoi_vertex P p X Y M.
Proof.
  intros Hw Hh Hm HP Ip HM HX HY.
  assert (FA : forall s, In s (far_points w h) -> sdist2 X Y M p < sdist2 X Y M s) by (intros s Is; apply (far_away w h); auto).
  split; intros (_ & _ & N & a & b & Ia & Ib & Ho & Ea & Eb); split; auto.
  - split; [exact Ip|]. split; [intros s Is; apply N, in_or_app; auto|]. exists a, b. repeat split; auto.
    + apply in_app_or in Ia. destruct Ia as [Ia|Ia]; [|exact Ia]. specialize (FA a Ia). lia.
    + apply in_app_or in Ib. destruct Ib as [Ib|Ib]; [|exact Ib]. specialize (FA b Ib). lia.
  - split; [apply in_or_app; auto|]. split.
    + intros s Is. apply in_app_or in Is. destruct Is as [Is|Is]; [specialize (FA s Is); lia|apply N, Is].
    + exists a, b. repeat split; auto; apply in_or_app; auto.
Qed.
