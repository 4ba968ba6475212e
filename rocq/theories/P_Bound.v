(** C61: the fitness is a fair share of the covered area: never negative, 0 only when
    nothing is covered, never noticeably above 1. *)
From Coq Require Import ZArith Reals List Bool Arith Lia Lra Permutation.
From Flocq Require Import IEEE754.BinarySingleNaN.
From Verif Require Import GoNum FloatLemmas M_Norm M_Slice M_Geom S_Geom M_Image S_Image L_Image M_Raster S_Raster S_Norm M_Delaunay S_Delaunay S_Remove M_Algo S_Algo M_Fitness S_Fitness S_Run S_Run2 S_Bound
  L_Slice L_PMap L_Plane L_BW L_Slots L_Insert L_Score L_Hist L_Reach L_Remove L_Tiles L_Toggle L_Sums L_Render L_Var L_Algo L_Algo2 L_Algo3 L_Algo4 L_Algo5 L_Fit L_Fit3 L_Sim L_Hold L_Tri L_Fwd L_Total L_Run2 L_Pick L_Area L_Bound P_Delaunay P_Remove P_Algo P_AlgoEx P_Fitness P_Run P_Run2.
Import ListNotations.
Open Scope Z_scope.

Lemma tarea_dbl t : tarea (ccw t) = dbl t.
Proof.
  unfold ccw, dbl, tarea. destruct (Z.ltb_spec (orient (d_a t) (d_b t) (d_c t)) 0) as [H|H]; cbn [ta tb tc]; unfold orient, area2 in *; lia.
Qed.
Lemma orient_dbl t : Z.abs (orient (d_a t) (d_b t) (d_c t)) = dbl t.
Proof. unfold dbl, orient, area2. f_equal. lia. Qed.
Lemma covered_sum d : covered2 d = sum_over dbl (iter_triangles d).
Proof. unfold covered2, sum_over. induction (iter_triangles d) as [|t l IH]; [reflexivity|]. cbn [map fold_right]. rewrite IH, orient_dbl. reflexivity. Qed.

Definition in_frameb (w h : Z) (t : tri) : bool := forallb (fun p => (0 <=? px p) && (px p <=? w) && (0 <=? py p) && (py p <=? h)) (verts t).
Lemma in_frameb_spec w h t : in_frameb w h t = true <-> forall p, In p (verts t) -> 0 <= px p <= w /\ 0 <= py p <= h.
Proof.
  unfold in_frameb. rewrite forallb_forall. split; intros H p Hp; specialize (H p Hp); rewrite ?andb_true_iff, ?Z.leb_le in *; lia.
Qed.
Lemma filtered_sum (g : dtri -> bool) (f : tri -> bool) l : (forall t, In t l -> g t = true -> f (ccw t) = true) ->
  sum_over dbl (filter g l) <= S_Geom.sumZ (map tarea (filter f (map ccw l))).
Proof.
  induction l as [|t l IH]; intros H; [cbn; lia|]. cbn [filter map]. specialize (IH (fun u Hu => H u (or_intror Hu))). pose proof (H t (or_introl eq_refl)) as Ht. pose proof (tarea_dbl t) as D. assert (0 <= dbl t) by (unfold dbl; lia).
  destruct (g t); [rewrite Ht by reflexivity|destruct (f (ccw t))]; cbn [map sum_over fold_right S_Geom.sumZ]; try fold (sum_over dbl (filter g l)); lia.
Qed.

Section State.
Context (w h : Z) (P : list point) (d : delaunay).
Hypothesis Hs : usual_size w h.
Hypothesis Ho : dstate_ok w h P d.
Lemma state_tri t : In t (iter_triangles d) -> (forall p, In p [d_a t; d_b t; d_c t] -> in_image w h p) /\ 0 < dbl t.
Proof.
  intros I. pose proof (small_ok _ _ (usual_small _ _ Hs)) as S. split.
  - intros p Hp. apply (ds_in _ _ _ _ Ho), (st_visible w h P d S Ho t p I Hp).
  - assert (Iu : In t (used d)) by (unfold iter_triangles in I; unfold used; apply filter_In in I as [I J]; apply filter_In; split; [exact I|]; apply andb_true_iff in J; apply J).
    pose proof (st_nondeg w h P d Ho t Iu) as N. rewrite <- orient_dbl. lia.
Qed.
Lemma state_frame : 0 <= covered2 d <= 2 * (w * h).
Proof.
  rewrite covered_sum. split.
  - rewrite <- (Z.mul_0_l (Z.of_nat (length (iter_triangles d)))), <- (sum_over_const 0 (iter_triangles d)). apply sum_over_le. intros; unfold dbl; lia.
  - pose proof (frame_area _ _ (in_frameb w h) w h (dt_tiling _ _ _ (ds_del _ _ _ _ Ho))) as K.
    etransitivity; [|apply K; try (destruct Hs as (? & ? & _); lia); intros t _ F; apply in_frameb_spec, F].
    rewrite iter_filter. apply filtered_sum. intros t I V. apply in_frameb_spec. intros p Hp.
    assert (It : In t (iter_triangles d)) by (rewrite iter_filter; apply filter_In; auto).
    apply (proj1 (state_tri t It)). apply ccw_verts in Hp. cbn [In]. intuition.
Qed.
End State.
Lemma alike_covered d e : alike d e -> covered2 d = covered2 e.
Proof. intros A. unfold covered2. rewrite (alike_iter _ _ A). reflexivity. Qed.

Lemma tri_score im bs fi t v : image_function im bs fi -> (forall p, In p [d_a t; d_b t; d_c t] -> in_image (i_w im) (i_h im) p) -> 0 < dbl t ->
  Z.of_nat (length (dda_pixels (Tri (d_a t) (d_b t) (d_c t)))) <= dbl t /\
  (tri_diff fi (d_a t) (d_b t) (d_c t) = Some v -> fin v /\ (IZR (- (2 * dbl t)) <= R64 v <= IZR (49535 * dbl t))%R).
Proof.
  intros (G & (Uw & Uh & _) & B1 & B2 & B3 & fuel & F & E) V D.
  assert (T : image_tri im (Tri (d_a t) (d_b t) (d_c t))).
  { split; [unfold dbl, tarea in *; cbn [ta tb tc]; lia|]. intros p Hp. apply (V p Hp). }
  assert (C : Z.of_nat (length (dda_pixels (Tri (d_a t) (d_b t) (d_c t)))) <= dbl t).
  { apply (pixel_count (Tri (d_a t) (d_b t) (d_c t))).
    - intros p Hp. destruct (V p Hp). change (2 ^ 15) with 32768. lia.
    - unfold xmin. cbn [ta tb tc]. pose proof (V (d_a t) ltac:(cbn; auto)) as [? _]. pose proof (V (d_b t) ltac:(cbn; auto)) as [? _]. pose proof (V (d_c t) ltac:(cbn; auto)) as [? _]. lia.
    - exact (proj1 T). }
  split; [exact C|]. intros Ev. apply (proj1 (C25_exact_pixels im fi bs fuel _ _ _ G ltac:(lia) ltac:(lia) B1 B2 B3 E T)) in Ev. subst v.
  assert (Fi : Forall (inside im) (dda_pixels (Tri (d_a t) (d_b t) (d_c t)))).
  { apply tri_pixels_inside; try lia. apply Forall_forall. intros p Hp. exact (proj2 T p Hp). }
  destruct (pixel_sums_range _ _ G Fi) as (Q1 & Q2 & Q3 & Q4). destruct (sums_bounds _ _ G Fi) as (Q5 & Q6). cbv zeta in *.
  assert (Db : dbl t <= 3686400).
  { pose proof (V (d_a t) ltac:(cbn; auto)) as [? ?]. pose proof (V (d_b t) ltac:(cbn; auto)) as [? ?]. pose proof (V (d_c t) ltac:(cbn; auto)) as [? ?].
    unfold dbl, area2. pose proof (box_area 1920 1920 (px (d_a t)) (py (d_a t)) (px (d_b t)) (py (d_b t)) (px (d_c t)) (py (d_c t)) 0 0 ltac:(lia) ltac:(lia) ltac:(lia) ltac:(lia) ltac:(lia) ltac:(lia)). lia. }
  set (s := pixel_sums im (dda_pixels (Tri (d_a t) (d_b t) (d_c t)))) in *. assert (En : 0 <= s_n s <= dbl t) by (unfold s; cbn [pixel_sums s_n]; lia). clearbody s.
  destruct (diff_range s ltac:(lia) Q1 Q2 Q3 Q4 Q5 Q6) as [Fv [L U]]. split; [exact Fv|]. split.
  - eapply Rle_trans; [|exact L]. apply IZR_le. lia.
  - eapply Rle_trans; [exact U|]. apply IZR_le. lia.
Qed.

Lemma fitness_share im bs fi P d f : image_function im bs fi -> dstate_ok (i_w im) (i_h im) P d -> plain_fitness fi d = Some f ->
  fin f /\ (0.49 * coverage_of (i_w im) (i_h im) d <= R64 f <= 1.0001 * coverage_of (i_w im) (i_h im) d)%R.
Proof.
  intros Him O. pose proof Him as (G & U & B1 & B2 & B3 & fuel & F & E). pose proof U as (Uw & Uh & Un).
  pose proof (state_frame _ _ _ _ U O) as Fr. unfold plain_fitness. destruct (plain_sums fi (iter_triangles d)) as [[x y]|] eqn:Es; [|discriminate]. intros [= <-].
  rewrite covered_sum in Fr. 
  assert (W : 1 <= i_w im * i_h im <= 3686400) by nia.
  pose proof (sums_loop fi (2 * (i_w im * i_h im)) ltac:(lia) (iter_triangles d) 0 f0 f0 x y ltac:(lia) ltac:(lia)) as L. cbn [Z.add] in L.
  destruct L as (Fx & Fy & Bx & Ey).
  - intros t It. destruct (state_tri _ _ _ _ U O t It) as [V D]. split.
    + intros p Hp. destruct (V p Hp). lia.
    + intros v Ev. apply (tri_score im bs fi t v Him V D), Ev.
  - reflexivity.
  - reflexivity.
  - rewrite f0_R. cbn. lra.
  - rewrite f0_R. lra.
  - exact Es.
  - rewrite <- covered_sum in Bx, Ey, Fr. destruct (new_fimg_fields _ _ _ _ E) as (Ew & Eh & Mx). change max_pixel_difference with 195075 in Mx.
    rewrite (i64_small (195075 * i_w im)) in Mx by lia. rewrite <- Z.mul_assoc in Mx. rewrite (i64_small (195075 * (i_w im * i_h im))) in Mx by lia. rewrite Ew, Eh, Mx, (i64_small (i_w im * i_h im)) by lia.
    destruct (of_Z_R (195075 * (i_w im * i_h im)) ltac:(lia)) as [Fm Em].
    exact (fit_value (i_w im * i_h im) (covered2 d) x y _ W Fr Fx Fy Fm Bx Ey Em).
Qed.
Lemma fitness_some im bs fi P d : image_function im bs fi -> dstate_ok (i_w im) (i_h im) P d -> exists f, plain_fitness fi d = Some f.
Proof.
  intros (G & U & B1 & B2 & B3 & fuel & F & E) O. destruct (plain_sums_some fi (iter_triangles d)) as ([u v] & Es).
  - intros t It. destruct (state_tri _ _ _ _ U O t It) as [V D]. assert (T : image_tri im (Tri (d_a t) (d_b t) (d_c t))).
    { split; [unfold dbl, tarea in *; cbn [ta tb tc]; lia|]. intros p Hp. apply (V p Hp). }
    destruct U as (W & H & _). rewrite (proj2 (C25_exact_pixels im fi bs fuel _ _ _ G ltac:(lia) ltac:(lia) B1 B2 B3 E T) F). discriminate.
  - unfold plain_fitness. rewrite Es. eauto.
Qed.
Lemma covered_pos w h P d : usual_size w h -> dstate_ok w h P d -> (0 < covered2 d <-> iter_triangles d <> []).
Proof.
  intros U O. rewrite covered_sum. pose proof (fun t I => proj2 (state_tri w h P d U O t I)) as Pt. destruct (iter_triangles d) as [|t l]; [cbn; split; [lia|congruence]|].
  split; [discriminate|]. intros _. cbn [sum_over fold_right]. fold (sum_over dbl l). pose proof (Pt t (or_introl eq_refl)).
  assert (0 <= sum_over dbl l). { rewrite <- (Z.mul_0_l (Z.of_nat (length l))), <- (sum_over_const 0 l). apply sum_over_le. intros; unfold dbl; lia. } lia.
Qed.
Lemma share_sign im bs fi P d f : image_function im bs fi -> dstate_ok (i_w im) (i_h im) P d -> plain_fitness fi d = Some f ->
  (0 <= R64 f <= 1.0001)%R /\ ((0 < R64 f)%R <-> iter_triangles d <> []).
Proof.
  intros Him O E. pose proof Him as (_ & U & _). pose proof U as (W & H & _). destruct (fitness_share im bs fi P d f Him O E) as [_ B]. pose proof (state_frame _ _ _ _ U O) as Fr. rewrite <- (covered_pos _ _ _ _ U O).
  unfold coverage_of in B. set (c := (IZR (covered2 d) / IZR (2 * (i_w im * i_h im)))%R) in *.
  assert (K : (0 < IZR (2 * (i_w im * i_h im)))%R) by (apply IZR_lt; nia).
  assert (Dc : (c * IZR (2 * (i_w im * i_h im)) = IZR (covered2 d))%R) by (unfold c, Rdiv; rewrite Rmult_assoc, Rinv_l; lra). clearbody c.
  destruct Fr as [F0 F1]. assert (F0' := IZR_le _ _ F0). apply IZR_le in F1.
  assert (C : (0 <= c <= 1)%R) by (split; apply Rmult_le_reg_r with (IZR (2 * (i_w im * i_h im))); lra).
  split; [lra|]. split; intros Q.
  - apply lt_IZR. rewrite <- Dc. apply Rmult_lt_0_compat; lra.
  - apply IZR_lt in Q. assert (0 < c)%R by (apply Rmult_lt_reg_r with (IZR (2 * (i_w im * i_h im))); lra). lra.
Qed.

(** C61: a triangle has at most twice as many pixels as its area (with the float edges
    of the rasterizer; the image is at most 32768 pixels wide and high). *)
Theorem C61_triangle_pixels : forall a b c, (forall p, In p [a; b; c] -> 0 <= px p <= 32768 /\ 0 <= py p <= 32768) -> orient a b c <> 0 ->
  Z.of_nat (length (dda_pixels (Tri a b c))) <= Z.abs (orient a b c).
Proof.
  intros a b c H N. replace (Z.abs (orient a b c)) with (Z.abs (tarea (Tri a b c))) by (unfold tarea, orient, area2; cbn [ta tb tc]; f_equal; lia).
  pose proof (H a ltac:(cbn; auto)) as [? _]. pose proof (H b ltac:(cbn; auto)) as [? _]. pose proof (H c ltac:(cbn; auto)) as [? _].
  apply pixel_count; [intros p Hp; destruct (H p Hp); change (2 ^ 15) with 32768; lia|unfold xmin; cbn [ta tb tc]; lia|unfold tarea, orient, area2 in *; cbn [ta tb tc]; lia].
Qed.
Print Assumptions C61_triangle_pixels.

(** C61: the triangles reported never have more area than the image, so the blank area
    is never negative. *)
Theorem C61_area : forall sort w h ops Q d, usual_size w h -> sorts_hulls sort -> valid_ops w h [] ops Q -> history sort w h ops = Some d ->
  0 <= covered2 d <= 2 * (w * h).
Proof. intros sort w h ops Q d S SO V E. destruct (history_is _ _ _ _ _ _ S SO V E) as [_ O]. exact (state_frame w h Q d S O). Qed.
Print Assumptions C61_area.

(** C61: the fitness exists, is a number, and is between 0.49 and 1.0001 times the share
    of the image the triangles cover. *)
Theorem C61_share : forall im bs fi sort ops Q d, image_function im bs fi -> sorts_hulls sort -> valid_ops (i_w im) (i_h im) [] ops Q -> history sort (i_w im) (i_h im) ops = Some d ->
  exists f, plain_fitness fi d = Some f /\ is_finite f = true /\
    (0.49 * coverage_of (i_w im) (i_h im) d <= B2R f <= 1.0001 * coverage_of (i_w im) (i_h im) d)%R.
Proof.
  intros im bs fi sort ops Q d Him SO V E. pose proof Him as (_ & S & _). destruct (history_is _ _ _ _ _ _ S SO V E) as [_ O].
  destruct (fitness_some im bs fi Q d Him O) as (f & Ef). exists f. split; [exact Ef|]. exact (fitness_share im bs fi Q d f Him O Ef).
Qed.
Print Assumptions C61_share.

(** C61: so it is never negative, 0 exactly if no triangle is reported, and at most 1.0001. *)
Theorem C61_sign : forall im bs fi sort ops Q d f, image_function im bs fi -> sorts_hulls sort -> valid_ops (i_w im) (i_h im) [] ops Q -> history sort (i_w im) (i_h im) ops = Some d ->
  plain_fitness fi d = Some f -> (0 <= B2R f <= 1.0001)%R /\ ((0 < B2R f)%R <-> iter_triangles d <> []).
Proof.
  intros im bs fi sort ops Q d f Him SO V E Ef. pose proof Him as (_ & S & _). destruct (history_is _ _ _ _ _ _ S SO V E) as [_ O]. exact (share_sign im bs fi Q d f Him O Ef).
Qed.
Print Assumptions C61_sign.

(** C61 in the running program: every fitness of the population. *)
Lemma del_share im bs fi pts d f : image_function im bs fi -> del_of fi pts d -> plain_fitness fi d = Some f ->
  (0 <= R64 f <= 1.0001)%R /\ ((0 < R64 f)%R <-> iter_triangles d <> []).
Proof.
  intros Him (P & d0 & (_ & O & A) & Pm) E. destruct (im_size im bs fi Him) as [Ew Eh]. rewrite Ew, Eh in O.
  assert (E' : plain_fitness fi d0 = Some f) by (unfold plain_fitness in *; rewrite <- (alike_iter _ _ A); exact E).
  rewrite (alike_iter _ _ A). exact (share_sign im bs fi P d0 f Him O E').
Qed.
Theorem C61_simple im bs fi srt cutoff n l pow2 c : image_function im bs fi -> hull_sort srt -> Z.of_nat l <= 32765 -> cutoff <> 0%nat -> (1 <= pow2 <= 62)%nat ->
  simple_program fi srt cutoff n l pow2 c -> forall i, (i < n)%nat -> let f := nth i (c_fits c) f0 in
  exists id t d, at_pos (c_ev c) i = Some (id, t) /\ tf_tri t = Some d /\ (0 <= B2R f <= 1.0001)%R /\ ((0 < B2R f)%R <-> iter_triangles d <> []).
Proof.
  intros Him Hs Hl Hc Hk R i Hi. cbv zeta. destruct (program_inv im bs fi srt cutoff n l pow2 Him Hs Hl Hc Hk c R) as [_ _ [_ He] _ _].
  destruct (He i Hi) as (_ & id & d & A & D & C). change (c_ev (cmap strip c)) with (strip (c_ev c)) in A. rewrite b_at_strip in A. destruct (at_pos (c_ev c) i) as [[id' t]|] eqn:Ea; [|discriminate]. cbn [option_map fst snd] in A.
  injection A as -> T B0. exists id, t, d. split; [reflexivity|]. split; [exact T|]. exact (del_share im bs fi _ d _ Him D C).
Qed.
Print Assumptions C61_simple.
Theorem C61_genetic im bs fi srt cutoff n l pow2 g : image_function im bs fi -> hull_sort srt -> Z.of_nat l <= 32765 -> cutoff <> 0%nat -> (2 * cutoff <= n)%nat -> (1 <= pow2 <= 62)%nat ->
  genetic_run fi srt cutoff n l pow2 g -> forall i, (i < n)%nat -> (0 <= B2R (nth i (c_fits (g_core g)) f0) <= 1.0001)%R.
Proof.
  intros Him Hs Hl Hc H2 Hk R i Hi. destruct (g_run_inv im bs fi srt cutoff n l pow2 Him Hs Hl Hc H2 Hk g R) as [_ Hh (_ & Hcnt & He) Hso].
  destruct (He i Hi) as [[(_ & id & d & _ & D & C) _]|[A _]].
  - exact (proj1 (del_share im bs fi _ d _ Him D C)).
  - change (c_fits (cmap strip (g_core g))) with (c_fits (g_core g)) in A. rewrite A. fold (R64 f0). rewrite f0_R. lra.
Qed.
Print Assumptions C61_genetic.

(** A concrete case: with the four corners all of the 6x6 image [waves] is covered, so the
    fitness is at least 0.49; with one point less half of it is, with two points left
    nothing is. *)
Definition four : list mop := [MAdd (Pt 0 0); MAdd (Pt 6 0); MAdd (Pt 6 6); MAdd (Pt 0 6)].
Definition three : list mop := four ++ [MRemove (Pt 6 6)].
Definition two_left : list mop := three ++ [MRemove (Pt 6 0)].
Lemma four_valid : valid_ops 6 6 [] four [Pt 0 6; Pt 6 6; Pt 6 0; Pt 0 0].
Proof. repeat (apply vo_add; [split; cbn; lia|cbn; lia|]). apply vo_nil. Qed.
Lemma three_valid : valid_ops 6 6 [] three [Pt 0 6; Pt 6 0; Pt 0 0].
Proof. unfold three, four. cbn [app]. repeat (apply vo_add; [split; cbn; lia|cbn; lia|]). eapply vo_remove; [vm_compute; reflexivity|]. apply vo_nil. Qed.
Lemma two_left_valid : valid_ops 6 6 [] two_left [Pt 0 6; Pt 0 0].
Proof. unfold two_left, three, four. cbn [app]. repeat (apply vo_add; [split; cbn; lia|cbn; lia|]). eapply vo_remove; [vm_compute; reflexivity|]. eapply vo_remove; [vm_compute; reflexivity|]. apply vo_nil. Qed.
Lemma cov_values : option_map covered2 (history insertion_sort 6 6 four) = Some 72 /\ option_map covered2 (history insertion_sort 6 6 three) = Some 36 /\
  option_map covered2 (history insertion_sort 6 6 two_left) = Some 0.
Proof. vm_compute. auto. Qed.
Lemma share_case im b fi srt w h ops Q k : image_function im b fi -> i_w im = w -> i_h im = h -> usual_size w h -> sorts_hulls srt -> valid_ops w h [] ops Q ->
  option_map covered2 (history srt w h ops) = Some k ->
  exists d f, history srt w h ops = Some d /\ plain_fitness fi d = Some f /\ (0.49 * (IZR k / IZR (2 * (w * h))) <= B2R f <= 1.0001 * (IZR k / IZR (2 * (w * h))))%R.
Proof.
  intros Him <- <- US HS V C. destruct (C48_no_panic srt _ _ ops Q US HS V) as (d & Ed). rewrite Ed in C. cbn [option_map] in C. injection C as <-.
  destruct (C61_share im b fi srt ops Q d Him HS V Ed) as (f & Ef & _ & B). exists d, f. split; [exact Ed|]. split; [exact Ef|]. exact B.
Qed.
Lemma waves_size gd : to_data waves = Some gd -> i_w (as_idata gd) = 6 /\ i_h (as_idata gd) = 6.
Proof.
  intros E. destruct (to_data_spec waves ltac:(cbn; lia) ltac:(cbn; lia) waves_conforming) as (gd' & E' & W & H & _). rewrite E in E'. injection E' as <-. split; assumption.
Qed.
Example C61_case : exists gd fi d4 d3 d2 f4 f3 f2, to_data waves = Some gd /\ image_function (as_idata gd) 2 fi /\
  history insertion_sort 6 6 four = Some d4 /\ history insertion_sort 6 6 three = Some d3 /\ history insertion_sort 6 6 two_left = Some d2 /\
  plain_fitness fi d4 = Some f4 /\ plain_fitness fi d3 = Some f3 /\ plain_fitness fi d2 = Some f2 /\
  (0.49 <= B2R f4 <= 1.0001)%R /\ (0.245 <= B2R f3 <= 0.50005)%R /\ B2R f2 = 0%R.
Proof.
  destruct waves_function as (gd & fi & E & Him). exists gd, fi. destruct (waves_size gd E) as [W H].
  assert (US : usual_size 6 6) by (unfold usual_size; lia). destruct cov_values as (C4 & C3 & C2).
  destruct (share_case _ _ _ _ _ _ _ _ _ Him W H US insertion_sorts_hulls four_valid C4) as (d4 & f4 & A4 & B4 & D4).
  destruct (share_case _ _ _ _ _ _ _ _ _ Him W H US insertion_sorts_hulls three_valid C3) as (d3 & f3 & A3 & B3 & D3).
  destruct (share_case _ _ _ _ _ _ _ _ _ Him W H US insertion_sorts_hulls two_left_valid C2) as (d2 & f2 & A2 & B2 & D2).
  exists d4, d3, d2, f4, f3, f2. clear - E Him A4 B4 D4 A3 B3 D3 A2 B2 D2. change (IZR (2 * (6 * 6))) with 72%R in *. repeat (split; [assumption|]). repeat split; lra.
Qed.
