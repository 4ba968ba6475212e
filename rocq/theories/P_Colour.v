(** C74: the colours of the picture are the closest to the image, and the fitness is how
    close the picture is. *)
From Coq Require Import ZArith Reals List Bool Arith Lia Lra Permutation.
From Flocq Require Import Core IEEE754.BinarySingleNaN.
From Verif Require Import GoNum FloatLemmas M_Norm M_Slice M_Geom S_Geom M_Image S_Image L_Image M_Raster S_Raster M_Render L_Render S_Norm M_Delaunay S_Delaunay S_Remove M_Algo S_Algo M_Fitness S_Fitness S_Run S_Run2 S_Bound
  L_Slice L_PMap L_Plane L_BW L_Slots L_Insert L_Score L_Hist L_Reach L_Remove L_Sums L_Var L_Area L_Fit3 L_Sim L_Hold L_Tri L_Run2 L_Bound P_Delaunay P_Remove P_Algo P_Fitness P_Run P_Run2 P_Bound
  M_Draw S_Draw L_Draw P_Draw M_Default S_Default P_Default P_AlgoEx P_Raster S_Colour L_Colour L_Colour2 L_Colour3 L_Colour4.
Import ListNotations.
Open Scope Z_scope.

(** * The colours *)
(** TrianglesOnImage gives a triangle the mean colour of the pixels it covers. *)
Theorem C74_mean : forall im t, good_image im -> 1 <= i_w im <= 2 ^ 24 -> 1 <= i_h im <= 2 ^ 24 ->
  (forall p, In p [ta t; tb t; tc t] -> 0 <= px p <= i_w im /\ 0 <= py p <= i_h im) ->
  exists d, triangle_on_image im t = Some d /\
    let l := sampled im (dda_pixels t) [ta t; tb t; tc t] in
    forall ch, channel ch -> (Rabs (B2R (ch (td_color d)) - mean (level im ch) l) <= mean_slack (length l))%R.
Proof.
  intros im t G Hw Hh F. destruct (triangle_color im t G Hw Hh) as (d & E & _ & K); [apply Forall_forall; exact F|].
  exists d. split; [exact E|]. apply K.
Qed.
Print Assumptions C74_mean.

(** No other colour is closer to these pixels, but for rounding. *)
Theorem C74_closest : forall im t d, good_image im -> 1 <= i_w im <= 2 ^ 24 -> 1 <= i_h im <= 2 ^ 24 ->
  (forall p, In p [ta t; tb t; tc t] -> 0 <= px p <= i_w im /\ 0 <= py p <= i_h im) -> triangle_on_image im t = Some d ->
  let l := sampled im (dda_pixels t) [ta t; tb t; tc t] in
  forall r g b : R, (error_of im l (td_color d) <= sq_error im l r g b + 3 * INR (length l) * (mean_slack (length l) * mean_slack (length l)))%R.
Proof.
  intros im t d G Hw Hh F E l r g b. destruct (triangle_color im t G Hw Hh) as (d' & E' & _ & N & _ & K); [apply Forall_forall; exact F|].
  rewrite E in E'. injection E' as <-. exact (color_nearest im l (td_color d) r g b N K).
Qed.
Print Assumptions C74_closest.

(** The same for PolygonsOnImage. *)
Lemma polygon_color im p : good_image im -> 1 <= i_w im <= 2 ^ 24 -> 1 <= i_h im <= 2 ^ 24 -> Forall (vertex_inside im) p -> p <> [] -> i_w im * i_h im * Z.of_nat (length p) < 2 ^ 53 ->
  exists d, polygon_on_image im p = Some d /\ let l := sampled im (flat_map dda_pixels (polygon_triangulate p)) p in l <> [] /\
    forall ch, channel ch -> (Rabs (B2R (ch (pd_color d)) - mean (level im ch) l) <= mean_slack (length l))%R.
Proof.
  intros G Hw Hh Fp Np Lp.
  assert (FT : forall t, In t (polygon_triangulate p) -> Forall (vertex_inside im) (verts t)).
  { intros t Ht. apply Forall_forall. intros q Hq. rewrite Forall_forall in Fp. apply Fp. eapply L_Raster3.fan_verts; eauto. }
  destruct (shape_color im (flat_map dda_pixels (polygon_triangulate p)) p) as (a & c & E1 & E2 & U); auto; try lia.
  { apply Forall_forall. intros q Hq. apply in_flat_map in Hq. destruct Hq as (t & Ht & Hq).
    pose proof (tri_pixels_inside im t ltac:(lia) ltac:(lia) (FT t Ht)) as Q. rewrite Forall_forall in Q. auto. }
  { assert (Z.of_nat (length (flat_map dda_pixels (polygon_triangulate p))) <= (i_w im * i_h im) * Z.of_nat (length (polygon_triangulate p))).
    { apply flat_map_length_le; [|nia]. intros t Ht. apply tri_pixels_count; auto; lia. }
    pose proof (fan_len p). assert (0 <= i_w im * i_h im) by (apply Z.mul_nonneg_nonneg; lia).
    assert (i_w im * i_h im * Z.of_nat (length (polygon_triangulate p)) <= i_w im * i_h im * Z.of_nat (length p)) by (apply Z.mul_le_mono_nonneg_l; lia). lia. }
  exists (PD (polygon_to_norm (i_w im) (i_h im) p) (avg_average c)). unfold polygon_on_image. rewrite E1, E2. split; [reflexivity|]. destruct U as (N & _ & K). split; [exact N|exact K].
Qed.
Theorem C74_polygon : forall im p d, good_image im -> 1 <= i_w im <= 2 ^ 24 -> 1 <= i_h im <= 2 ^ 24 ->
  (forall q, In q p -> 0 <= px q <= i_w im /\ 0 <= py q <= i_h im) -> p <> [] -> i_w im * i_h im * Z.of_nat (length p) < 2 ^ 53 -> polygon_on_image im p = Some d ->
  let l := sampled im (flat_map dda_pixels (polygon_triangulate p)) p in
  (forall ch, channel ch -> (Rabs (B2R (ch (pd_color d)) - mean (level im ch) l) <= mean_slack (length l))%R) /\
  forall r g b : R, (error_of im l (pd_color d) <= sq_error im l r g b + 3 * INR (length l) * (mean_slack (length l) * mean_slack (length l)))%R.
Proof.
  intros im p d G Hw Hh F Np Lp E l. destruct (polygon_color im p G Hw Hh) as (d' & E' & N & K); try assumption; [apply Forall_forall; exact F|].
  rewrite E in E'. injection E' as <-. split; [exact K|]. intros r g b. exact (color_nearest im l (pd_color d) r g b N K).
Qed.
Print Assumptions C74_polygon.

(** * The score *)
(** In 255ths the score of a triangle is the squared error of the drawn triangle, at most
    one too small for every pixel (the squares of C13). *)
Theorem C74_score : forall gi d im bs fi a b c o v, conforming gi -> to_data gi = Some d -> im = as_idata d -> image_function im bs fi ->
  (forall p, In p [a; b; c] -> in_image (i_w im) (i_h im) p) -> orient a b c <> 0 -> triangle_on_image im (Tri a b c) = Some o -> tri_diff fi a b c = Some v ->
  let l := dda_pixels (Tri a b c) in
  (65025 * error_of im l (td_color o) - INR (length l) - / 32 <= B2R v <= 65025 * error_of im l (td_color o) + / 32)%R.
Proof.
  intros gi d im bs fi a b c o v Hc Hd -> Him V N Eo Ev l.
  pose proof Him as (G & (Uw & Uh & _) & B1 & B2 & B3 & fuel & F & E). set (im := as_idata d) in *.
  assert (T : image_tri im (Tri a b c)) by (split; [unfold tarea; cbn [ta tb tc]; unfold orient, area2 in *; lia|]; intros p Hp; apply (V p Hp)).
  assert (Fv : Forall (vertex_inside im) (verts (Tri a b c))) by (apply Forall_forall; intros p Hp; apply (V p Hp)).
  assert (Hx : 0 <= g_maxx gi /\ 0 <= g_maxy gi).
  { destruct (Z.lt_ge_cases (g_maxx gi) 0) as [L|L]; [|destruct (Z.lt_ge_cases (g_maxy gi) 0) as [M|M]; [|lia]]; exfalso; unfold to_data in Hd.
    - destruct (_ || _); [discriminate|]. injection Hd as <-. cbn [im as_idata i_w d_w] in Uw. lia.
    - destruct (_ || _); [discriminate|]. injection Hd as <-. cbn [im as_idata i_h d_h] in Uh. lia. }
  apply (proj1 (C25_exact_pixels im fi bs fuel _ _ _ G ltac:(lia) ltac:(lia) B1 B2 B3 E T)) in Ev. subst v.
  assert (Fi : Forall (L_Render.inside im) l) by (apply tri_pixels_inside; try lia; exact Fv).
  assert (C : Z.of_nat (length l) <= 6876000).
  { pose proof (tri_pixels_count im (Tri a b c) ltac:(lia) ltac:(lia) ltac:(lia) ltac:(lia) Fv) as K. fold l in K. nia. }
  apply (score_error gi d l (td_color o)); try tauto; try assumption.
  intros Nl. destruct (triangle_color im (Tri a b c) G ltac:(lia) ltac:(lia) Fv) as (o' & Eo' & _ & _ & _ & K). rewrite Eo in Eo'. injection Eo' as <-.
  fold l in K. assert (Es : sampled im l (verts (Tri a b c)) = l) by (unfold sampled; destruct l; [congruence|reflexivity]). rewrite Es in K. exact K.
Qed.
Print Assumptions C74_score.

(** * The fitness *)
Definition as_tri (t : dtri) : tri := Tri (d_a t) (d_b t) (d_c t).
Definition tri_err (im : idata) (t : tri) : R := match triangle_on_image im t with Some o => error_of im (dda_pixels t) (td_color o) | None => 0%R end.
Lemma picture_total im ts : forall out, triangles_on_image ts im = Some out -> picture_error im ts (map td_color out) = total (tri_err im) ts.
Proof.
  unfold triangles_on_image, picture_error. induction ts as [|t ts IH]; intros out; cbn [mapM].
  - intros [= <-]. reflexivity.
  - destruct (triangle_on_image im t) as [o|] eqn:E; [|discriminate]. destruct (mapM (triangle_on_image im) ts) as [os|] eqn:M; [|discriminate]. intros [= <-].
    cbn [map combine]. rewrite !total_cons, (IH os eq_refl). cbn [fst snd]. unfold tri_err. rewrite E. reflexivity.
Qed.
Lemma covered_area d : picture_area (map as_tri (iter_triangles d)) = (IZR (covered2 d) / 2)%R.
Proof.
  unfold picture_area, covered2. rewrite map_map. do 2 f_equal. f_equal. apply map_ext. intros t. unfold as_tri, orient. cbn [ta tb tc]. f_equal. lia.
Qed.
Lemma picture_exists im w h P d : good_image im -> i_w im = w -> i_h im = h -> usual_size w h -> dstate_ok w h P d -> exists out, triangles_on_image (map as_tri (iter_triangles d)) im = Some out.
Proof.
  intros G <- <- U O. pose proof U as (Uw & Uh & _). destruct (triangles_render im (map as_tri (iter_triangles d)) G ltac:(lia) ltac:(lia)) as (out & E & _); [|eauto].
  apply Forall_forall. intros t I. apply in_map_iff in I. destruct I as (u & <- & I). destruct (state_tri _ _ _ _ U O u I) as [V _]. apply Forall_forall. intros p Hp. apply (V p Hp).
Qed.
Lemma fitness_picture gi data bs fi P d f : conforming gi -> to_data gi = Some data -> let im := as_idata data in image_function im bs fi -> dstate_ok (i_w im) (i_h im) P d -> plain_fitness fi d = Some f ->
  let s := picture_score im (picture_area (map as_tri (iter_triangles d))) (total (tri_err im) (map as_tri (iter_triangles d))) in (s - 0.0000007 <= R64 f <= s + 0.000011)%R.
Proof.
  intros Hc Hd im Him O. pose proof Him as (G & U & B1 & B2 & B3 & fuel & F & E). pose proof U as (Uw & Uh & Un). cbv zeta.
  pose proof (state_frame _ _ _ _ U O) as Fr. unfold plain_fitness. destruct (plain_sums fi (iter_triangles d)) as [[x y]|] eqn:Es; [|discriminate]. intros [= <-].
  rewrite covered_area. rewrite covered_sum in *. rewrite total_map.
  assert (W : 1 <= i_w im * i_h im <= 3686400) by nia.
  assert (TS : forall t, In t (iter_triangles d) -> 0 < dbl t /\ forall v, tri_diff fi (d_a t) (d_b t) (d_c t) = Some v -> fin v /\ (IZR (- (2 * dbl t)) <= R64 v <= IZR (49535 * dbl t))%R /\
     (65025 * tri_err im (as_tri t) - 33 / 32 * IZR (dbl t) <= R64 v <= 65025 * tri_err im (as_tri t) + / 32 * IZR (dbl t))%R).
  { intros t It. destruct (state_tri _ _ _ _ U O t It) as [V D]. split; [exact D|]. intros v Ev. destruct (tri_score im bs fi t v Him V D) as [Cn K]. destruct (K Ev) as [Fv Bv]. split; [exact Fv|]. split; [exact Bv|].
    destruct (triangle_color im (as_tri t) G ltac:(lia) ltac:(lia)) as (o & Eo & _); [apply Forall_forall; intros p Hp; apply (V p Hp)|].
    pose proof (C74_score gi data im bs fi (d_a t) (d_b t) (d_c t) o v Hc Hd eq_refl Him V ltac:(rewrite <- orient_dbl in D; lia) Eo Ev) as SC. cbv zeta in SC.
    unfold tri_err. rewrite Eo. change (dda_pixels (as_tri t)) with (dda_pixels (Tri (d_a t) (d_b t) (d_c t))). rewrite INR_IZR_INZ in SC. apply IZR_le in Cn. assert (1 <= IZR (dbl t))%R by (apply IZR_le; lia). lra. }
  pose proof (sums_loop fi (2 * (i_w im * i_h im)) ltac:(lia) (iter_triangles d) 0 f0 f0 x y ltac:(lia) ltac:(lia)) as L. cbn [Z.add] in L.
  destruct L as (Fx & Fy & Bx & Ey); try reflexivity; try exact Es; try (rewrite f0_R; cbn; lra).
  { intros t It. destruct (state_tri _ _ _ _ U O t It) as [V D]. split; [intros p Hp; destruct (V p Hp); lia|]. intros v Ev. destruct (proj2 (TS t It) v Ev) as (A & B & _). auto. }
  pose proof (close_loop fi (2 * (i_w im * i_h im)) (fun t => 65025 * tri_err im (as_tri t))%R ltac:(lia) (iter_triangles d) 0 0 f0 f0 x y ltac:(lia) ltac:(lia) TS eq_refl) as L2. cbn [Z.add] in L2. rewrite total_scale in L2.
  specialize (L2 ltac:(rewrite f0_R; cbn; lra) ltac:(rewrite f0_R; lra) Es). rewrite !Rplus_0_l in L2.
  destruct (new_fimg_fields _ _ _ _ E) as (Ew & Eh & Mx). change max_pixel_difference with 195075 in Mx.
  rewrite (i64_small (195075 * i_w im)) in Mx by lia. rewrite <- Z.mul_assoc in Mx. rewrite (i64_small (195075 * (i_w im * i_h im))) in Mx by lia. rewrite Ew, Eh, Mx, (i64_small (i_w im * i_h im)) by lia.
  destruct (of_Z_R (195075 * (i_w im * i_h im)) ltac:(lia)) as [Fm Em].
  unfold picture_score. apply (fit_close (i_w im * i_h im) (sum_over dbl (iter_triangles d)) x y _ _ W Fr Fx Fy Fm Bx Ey Em L2).
Qed.

(** After any insertions and removals: the fitness is the score of the picture of these
    triangles in their colours. *)
Theorem C74_fitness : forall gi data im bs fi sort ops Q d f, conforming gi -> to_data gi = Some data -> im = as_idata data -> image_function im bs fi -> sorts_hulls sort ->
  valid_ops (i_w im) (i_h im) [] ops Q -> history sort (i_w im) (i_h im) ops = Some d -> plain_fitness fi d = Some f ->
  let ts := map (fun t => Tri (d_a t) (d_b t) (d_c t)) (iter_triangles d) in
  exists out, triangles_on_image ts im = Some out /\
    let s := picture_score im (picture_area ts) (picture_error im ts (map td_color out)) in (s - 0.0000007 <= B2R f <= s + 0.000011)%R.
Proof.
  intros gi data im bs fi sort ops Q d f Hc Hd -> Him SO V E Ef. cbv zeta. set (im := as_idata data) in *. pose proof Him as (G & S & _). destruct (history_is _ _ _ _ _ _ S SO V E) as [_ O].
  destruct (picture_exists im _ _ Q d G eq_refl eq_refl S O) as (out & Eo). exists out. split; [exact Eo|]. change (fun t => Tri (d_a t) (d_b t) (d_c t)) with as_tri. rewrite (picture_total im _ out Eo).
  exact (fitness_picture gi data bs fi Q d f Hc Hd Him O Ef).
Qed.
Print Assumptions C74_fitness.

(** * The program *)
Lemma del_picture gi data bs fi pts d f : conforming gi -> to_data gi = Some data -> let im := as_idata data in image_function im bs fi -> del_of fi pts d -> plain_fitness fi d = Some f ->
  let ts := map as_tri (iter_triangles d) in (exists out, triangles_on_image ts im = Some out) /\
  let s := picture_score im (picture_area ts) (total (tri_err im) ts) in (s - 0.0000007 <= R64 f <= s + 0.000011)%R.
Proof.
  intros Hc Hd im Him (P & d0 & (_ & O & A) & Pm) E. destruct (im_size im bs fi Him) as [Ew Eh]. rewrite Ew, Eh in O.
  assert (E' : plain_fitness fi d0 = Some f) by (unfold plain_fitness in *; rewrite <- (alike_iter _ _ A); exact E).
  cbv zeta. rewrite (alike_iter _ _ A). split; [|exact (fitness_picture gi data bs fi P d0 f Hc Hd Him O E')].
  pose proof Him as (G & U & _). exact (picture_exists im _ _ P d0 G eq_refl eq_refl U O).
Qed.
Lemma del_scored gi data im bs fi pts d f : conforming gi -> to_data gi = Some data -> im = as_idata data -> image_function im bs fi -> del_of fi pts d -> plain_fitness fi d = Some f ->
  exists d out, delaunay_triangulation (i_w im) (i_h im) (map (mut_point fi) pts) d /\
    let ts := map (fun t => Tri (d_a t) (d_b t) (d_c t)) (iter_triangles d) in triangles_on_image ts im = Some out /\
    let s := picture_score im (picture_area ts) (picture_error im ts (map td_color out)) in (s - 0.0000007 <= B2R f <= s + 0.000011)%R.
Proof.
  intros Hc Hd -> Him D C. set (im := as_idata data) in *. destruct (del_picture gi data bs fi _ d _ Hc Hd Him D C) as ((out & Eo) & B). fold im in Eo, B.
  exists d, out. split.
  - destruct D as (P & d0 & (_ & O & K) & Pm). destruct (im_size im bs fi Him) as [Ew Eh]. rewrite <- Ew, <- Eh. eapply state_delaunay; eauto. apply small_ok, usual_small. exact (im_usual im bs fi Him).
  - cbv zeta in *. change (fun t => Tri (d_a t) (d_b t) (d_c t)) with as_tri. split; [exact Eo|]. rewrite (picture_total im _ out Eo). exact B.
Qed.
(** In every state of a run every fitness is the score of a picture of a Delaunay
    triangulation of the member. *)
Theorem C74_simple : forall gi data im bs fi srt cutoff n l pow2 c, conforming gi -> to_data gi = Some data -> im = as_idata data -> image_function im bs fi -> hull_sort srt -> Z.of_nat l <= 32765 -> cutoff <> 0%nat -> (1 <= pow2 <= 62)%nat ->
  simple_program fi srt cutoff n l pow2 c -> forall i, (i < n)%nat ->
  exists d out, delaunay_triangulation (i_w im) (i_h im) (map (mut_point fi) (nth i (members c) [])) d /\
    let ts := map (fun t => Tri (d_a t) (d_b t) (d_c t)) (iter_triangles d) in triangles_on_image ts im = Some out /\
    let s := picture_score im (picture_area ts) (picture_error im ts (map td_color out)) in (s - 0.0000007 <= B2R (nth i (c_fits c) f0) <= s + 0.000011)%R.
Proof.
  intros gi data im bs fi srt cutoff n l pow2 c Hc Hd Ei Him Hs Hl Hcu Hk R i Hi. destruct (program_inv im bs fi srt cutoff n l pow2 Him Hs Hl Hcu Hk c R) as [_ _ [_ He] _ _].
  destruct (He i Hi) as (_ & id & d & A & D & C). exact (del_scored gi data im bs fi _ d _ Hc Hd Ei Him D C).
Qed.
Print Assumptions C74_simple.
(** The same for the modified genetic algorithm and the members it has evaluated: the first
    ones, with Best at their head, and all others with a positive fitness. *)
Theorem C74_genetic : forall gi data im bs fi srt cutoff n l pow2 g, conforming gi -> to_data gi = Some data -> im = as_idata data -> image_function im bs fi -> hull_sort srt -> Z.of_nat l <= 32765 -> cutoff <> 0%nat -> (2 * cutoff <= n)%nat -> (1 <= pow2 <= 62)%nat ->
  genetic_run fi srt cutoff n l pow2 g -> let c := g_core g in forall i, (i < cutoff)%nat \/ ((i < n)%nat /\ flt f0 (nth i (c_fits c) f0) = true) ->
  exists d out, delaunay_triangulation (i_w im) (i_h im) (map (mut_point fi) (nth i (members c) [])) d /\
    let ts := map (fun t => Tri (d_a t) (d_b t) (d_c t)) (iter_triangles d) in triangles_on_image ts im = Some out /\
    let s := picture_score im (picture_area ts) (picture_error im ts (map td_color out)) in (s - 0.0000007 <= B2R (nth i (c_fits c) f0) <= s + 0.000011)%R.
Proof.
  intros gi data im bs fi srt cutoff n l pow2 g Hc Hd Ei Him Hs Hl Hcu H2 Hk R c i Hi. destruct (g_run_inv im bs fi srt cutoff n l pow2 Him Hs Hl Hcu H2 Hk g R) as [_ Hh (_ & Hcnt & He) Hso].
  assert (Hin : (i < n)%nat) by lia.
  assert (N : nth i (c_fits c) f0 <> f0).
  { intros E. destruct Hi as [Hi|[_ P]]; [|rewrite E in P; discriminate].
    destruct (genetic_history_shape (bare_ev fi srt) cutoff n l _ Hcu Hh) as (Sh & _). apply (top_positive cutoff (c_fits c) i Hso); try exact E; try exact Hi.
    - unfold c. rewrite (sh_fits _ _ _ Sh : length (c_fits (g_core g)) = n). exact Hcnt.
    - unfold c. rewrite (sh_fits _ _ _ Sh : length (c_fits (g_core g)) = n). exact H2. }
  destruct (He i Hin) as [[(_ & id & d & _ & D & C) _]|[A _]]; [exact (del_scored gi data im bs fi _ d _ Hc Hd Ei Him D C)|destruct (N A)].
Qed.
Print Assumptions C74_genetic.

(** * The picture drawn *)
Lemma err_order im t u : good_image im -> 1 <= i_w im <= 2 ^ 24 -> 1 <= i_h im <= 2 ^ 24 -> Forall (vertex_inside im) (verts t) -> Forall (vertex_inside im) (verts u) ->
  orient (ta t) (tb t) (tc t) <> 0 -> orient (ta u) (tb u) (tc u) <> 0 -> same_corners (ta t) (tb t) (tc t) (ta u) (tb u) (tc u) -> tri_err im t = tri_err im u.
Proof.
  intros G Hw Hh Vt Vu Nt Nu Sc. pose proof (pixels_order t u Nt Nu Sc) as E. unfold tri_err. rewrite <- E.
  destruct (triangle_color im t G Hw Hh Vt) as (o & Eo & _). destruct (triangle_color im u G Hw Hh Vu) as (o' & Eo' & _). rewrite Eo, Eo'.
  destruct (dda_pixels t) as [|p l] eqn:El; [reflexivity|].
  assert (F : Forall (L_Render.inside im) (p :: l)) by (rewrite <- El; apply tri_pixels_inside; try lia; exact Vt).
  assert (C : 1 <= Z.of_nat (length (p :: l)) < 2 ^ 53).
  { pose proof (tri_pixels_count im t ltac:(lia) ltac:(lia) ltac:(lia) ltac:(lia) Vt) as K. rewrite El in K. cbn [length] in *. nia. }
  destruct (pixels_color im (p :: l) G F C) as (a & Ea & Ca & _). unfold triangle_on_image in Eo, Eo'. rewrite <- E in Eo'. rewrite El in Eo. rewrite Ea in Eo, Eo'. rewrite Ca in Eo, Eo'.
  replace (Z.of_nat (length (p :: l)) =? 0) with false in * by (symmetry; apply Z.eqb_neq; lia). injection Eo as <-. injection Eo' as <-. reflexivity.
Qed.
Lemma general_alone Q a b c : no_four_on_a_circle Q -> In a Q -> In b Q -> In c Q -> orient a b c <> 0 -> (forall p, In p Q -> ~ in_circumcircle a b c p) -> alone Q a b c.
Proof.
  intros G Ia Ib Ic N E p Ip (X & Y & M & HM & Hb & Hc & Hp). apply (G a b c p Ia Ib Ic Ip N). exists X, Y, M. repeat (split; [assumption|]).
  destruct (Z.eq_dec (sdist2 X Y M p) (sdist2 X Y M a)) as [e|e]; [exact e|]. exfalso. apply (E p Ip). exists X, Y, M. repeat split; try assumption. lia.
Qed.
(** Drawn and scored triangles in general position are the same. *)
Lemma drawn_total w h Q d ts (f : tri -> R) : usual_size w h -> Forall (in_image w h) Q -> delaunay_triangulation w h Q d -> delaunay_of Q ts -> all_different ts -> no_four_on_a_circle Q -> frame_outside w h ts ->
  (forall t u, (forall p, In p (verts t) -> In p Q) -> (forall p, In p (verts u) -> In p Q) -> orient (ta t) (tb t) (tc t) <> 0 -> orient (ta u) (tb u) (tc u) <> 0 -> same_corners (ta t) (tb t) (tc t) (ta u) (tb u) (tc u) -> f t = f u) ->
  total f (map as_tri (iter_triangles d)) = total f ts.
Proof.
  intros Sz IQ D T Df G Fo Hf. set (eqv := fun t u : tri => same_corners (ta t) (tb t) (tc t) (ta u) (tb u) (tc u)).
  assert (Us : forall t, In t (iter_triangles d) -> In t (used d)) by (intros t I; unfold iter_triangles, used in *; rewrite filter_In in *; destruct I as [I K]; apply andb_prop in K; tauto).
  apply (match_total eqv).
  - intros a b. apply corners_sym.
  - intros a b c. apply corners_trans.
  - exact (scored_different w h Q d Sz IQ D).
  - exact Df.
  - intros t It. apply in_map_iff in It. destruct It as (t' & <- & It). apply (C72_scored_is_drawn w h Q d ts D T t' It).
    destruct (del_corners _ _ _ _ D t' It) as (Ia & Ib & Ic). apply general_alone; try assumption; [exact (del_area _ _ _ _ D t' (Us _ It))|]. intros p. exact (del_empty _ _ _ _ D t' p (Us _ It)).
  - intros u Iu. destruct (do_corners _ _ T u Iu) as (Ia & Ib & Ic).
    destruct (C72_drawn_is_scored w h Q d ts Sz IQ D T u Iu) as (t & It & Sc).
    { intros p Ip C. unfold framed in Ip. cbv zeta in Ip.
      assert (K : In p Q \/ (let s := new_super_triangle w h in In p [d_a s; d_b s; d_c s])) by (cbv zeta; clear - Ip; destruct Ip as [Ip|[Ip|[Ip|Ip]]]; [right; left|right; right; left|right; right; right; left|left]; exact Ip).
      destruct K as [K|K]; [|exfalso; exact (Fo u p Iu K C)].
      apply (general_alone Q _ _ _ G Ia Ib Ic (do_area _ _ T u Iu) (fun q => do_empty _ _ T u q Iu) p K C). }
    exists (as_tri t). split; [apply in_map, It|]. apply corners_sym. exact Sc.
  - intros t u It Iu E. apply in_map_iff in It. destruct It as (t' & <- & It). destruct (del_corners _ _ _ _ D t' It) as (Ia & Ib & Ic). destruct (do_corners _ _ T u Iu) as (Ja & Jb & Jc).
    apply Hf; [| |exact (del_area _ _ _ _ D t' (Us _ It))|exact (do_area _ _ T u Iu)|exact E].
    + intros p [<-|[<-|[<-|[]]]]; assumption.
    + intros p [<-|[<-|[<-|[]]]]; assumption.
Qed.
Lemma area_total ts : picture_area ts = (total (fun t => IZR (Z.abs (orient (ta t) (tb t) (tc t)))) ts / 2)%R.
Proof.
  unfold picture_area. f_equal. induction ts as [|t ts IH]; [reflexivity|]. rewrite total_cons, <- IH. cbn [map fold_right]. rewrite plus_IZR. do 2 f_equal. unfold orient. f_equal. lia.
Qed.

(** A member whose fitness is the score of a picture of a Delaunay triangulation. *)
Lemma drawn_scored im bs fi pts (f : f64) : image_function im bs fi -> Forall pt_in_unit pts -> Forall (rounds_alike (i_w im) (i_h im)) pts ->
  (exists d out, delaunay_triangulation (i_w im) (i_h im) (map (mut_point fi) pts) d /\
    let ts := map (fun t => Tri (d_a t) (d_b t) (d_c t)) (iter_triangles d) in triangles_on_image ts im = Some out /\
    let s := picture_score im (picture_area ts) (picture_error im ts (map td_color out)) in (s - 0.0000007 <= B2R f <= s + 0.000011)%R) ->
  forall del ts out, triangulate del pts (i_w im) (i_h im) = Some ts -> triangles_on_image ts im = Some out ->
  let Q := map (fun p => render_point p (i_w im) (i_h im)) pts in delaunay_of Q ts -> all_different ts -> no_four_on_a_circle Q -> frame_outside (i_w im) (i_h im) ts ->
  let s := picture_score im (picture_area ts) (picture_error im ts (map td_color out)) in (s - 0.0000007 <= B2R f <= s + 0.000011)%R.
Proof.
  intros Him U RA (d & out' & DT & Eo' & B) del ts out T Eo Q DO Df G Fo.
  pose proof Him as (Gi & Us & _). pose proof Us as (Uw & Uh & _). rewrite Forall_forall in U, RA. destruct (im_size im bs fi Him) as [Ew Eh].
  assert (E : map (mut_point fi) pts = Q).
  { unfold Q. apply map_ext_in. intros p Ip. rewrite <- Ew, <- Eh. apply C72_rounding; [lia|lia|apply U, Ip|rewrite Ew, Eh; apply RA, Ip]. }
  rewrite E in DT.
  assert (IQ : forall q, In q Q -> in_image (i_w im) (i_h im) q).
  { intros q J. apply in_map_iff in J. destruct J as (p & <- & J). apply render_in; [lia|lia|apply U, J]. }
  cbv zeta in B |- *. change (fun t => Tri (d_a t) (d_b t) (d_c t)) with as_tri in B, Eo'. rewrite (picture_total im _ out' Eo') in B. rewrite (picture_total im _ out Eo).
  assert (IQ' : Forall (in_image (i_w im) (i_h im)) Q) by (apply Forall_forall; exact IQ).
  rewrite area_total in *.
  rewrite (drawn_total _ _ Q d ts (tri_err im) Us IQ' DT DO Df G Fo) in B.
  - rewrite (drawn_total _ _ Q d ts (fun t => IZR (Z.abs (orient (ta t) (tb t) (tc t)))) Us IQ' DT DO Df G Fo) in B; [exact B|].
    intros t u _ _ Nt Nu Sc. rewrite (area_order _ _ _ _ _ _ Nt Nu Sc). reflexivity.
  - intros t u Ht Hu. apply err_order; try assumption; try lia; apply Forall_forall; intros p Ip; [pose proof (IQ p (Ht p Ip)) as K|pose proof (IQ p (Hu p Ip)) as K]; apply K.
Qed.
(** The fitness of a member is the score of the picture that Triangulate and
    TrianglesOnImage draw of it, if the drawn triangles are a Delaunay triangulation, no
    four points are on a circle, and no circumcircle reaches the enclosing triangle. *)
Theorem C74_picture : forall gi data im bs fi srt cutoff n l pow2 c i, conforming gi -> to_data gi = Some data -> im = as_idata data -> image_function im bs fi -> hull_sort srt -> Z.of_nat l <= 32765 -> cutoff <> 0%nat -> (1 <= pow2 <= 62)%nat ->
  simple_program fi srt cutoff n l pow2 c -> (i < n)%nat -> let pts := nth i (members c) [] in Forall (rounds_alike (i_w im) (i_h im)) pts ->
  forall del ts out, triangulate del pts (i_w im) (i_h im) = Some ts -> triangles_on_image ts im = Some out ->
  let Q := map (fun p => render_point p (i_w im) (i_h im)) pts in delaunay_of Q ts -> all_different ts -> no_four_on_a_circle Q -> frame_outside (i_w im) (i_h im) ts ->
  let s := picture_score im (picture_area ts) (picture_error im ts (map td_color out)) in (s - 0.0000007 <= B2R (nth i (c_fits c) f0) <= s + 0.000011)%R.
Proof.
  intros gi data im bs fi srt cutoff n l pow2 c i Hc Hd Ei Him Hs Hl Hcu Hk R Hi pts RA.
  exact (drawn_scored im bs fi pts _ Him (program_unit im bs fi srt cutoff n l pow2 c i Him Hs Hl Hcu Hk R Hi) RA (C74_simple gi data im bs fi srt cutoff n l pow2 c Hc Hd Ei Him Hs Hl Hcu Hk R i Hi)).
Qed.
Print Assumptions C74_picture.
Theorem C74_genetic_picture : forall gi data im bs fi srt cutoff n l pow2 g i, conforming gi -> to_data gi = Some data -> im = as_idata data -> image_function im bs fi -> hull_sort srt -> Z.of_nat l <= 32765 -> cutoff <> 0%nat -> (2 * cutoff <= n)%nat -> (1 <= pow2 <= 62)%nat ->
  genetic_run fi srt cutoff n l pow2 g -> let c := g_core g in (i < cutoff)%nat \/ ((i < n)%nat /\ flt f0 (nth i (c_fits c) f0) = true) -> let pts := nth i (members c) [] in Forall (rounds_alike (i_w im) (i_h im)) pts ->
  forall del ts out, triangulate del pts (i_w im) (i_h im) = Some ts -> triangles_on_image ts im = Some out ->
  let Q := map (fun p => render_point p (i_w im) (i_h im)) pts in delaunay_of Q ts -> all_different ts -> no_four_on_a_circle Q -> frame_outside (i_w im) (i_h im) ts ->
  let s := picture_score im (picture_area ts) (picture_error im ts (map td_color out)) in (s - 0.0000007 <= B2R (nth i (c_fits c) f0) <= s + 0.000011)%R.
Proof.
  intros gi data im bs fi srt cutoff n l pow2 g i Hc Hd Ei Him Hs Hl Hcu H2 Hk R c Hi pts RA.
  exact (drawn_scored im bs fi pts _ Him (genetic_unit im bs fi srt cutoff n l pow2 g i Him Hs Hl Hcu H2 Hk R ltac:(lia)) RA (C74_genetic gi data im bs fi srt cutoff n l pow2 g Hc Hd Ei Him Hs Hl Hcu H2 Hk R i Hi)).
Qed.
Print Assumptions C74_genetic_picture.

(** So Stats.BestFitness of DefaultAlgorithm is the score of the picture of Best. *)
Theorem C74_default : forall fuel srt num image fi c data, usual_image image -> hull_sort srt -> num <= 32765 -> 2 ^ 56 <= Z.of_nat fuel -> default_run fuel srt num image fi c -> to_data image = Some data ->
  let w := g_maxx image in let h := g_maxy image in let pts := buf c (best_slice c) in Forall (rounds_alike w h) pts ->
  forall del ts out, triangulate del pts w h = Some ts -> triangles_on_image ts (as_idata data) = Some out ->
  let Q := map (fun p => render_point p w h) pts in delaunay_of Q ts -> all_different ts -> no_four_on_a_circle Q -> frame_outside w h ts ->
  let s := picture_score (as_idata data) (picture_area ts) (picture_error (as_idata data) ts (map td_color out)) in (s - 0.0000007 <= B2R (stats_best c) <= s + 0.000011)%R.
Proof.
  intros fuel srt num image fi c data Hi Hs Hn Hf R Hd w h. destruct (default_program fuel srt num image Hi Hf fi c R) as (P & d & Hd' & Him & _). rewrite Hd in Hd'. injection Hd' as <-.
  assert (C1 : default_cutoff <> 0%nat) by (unfold default_cutoff; lia). assert (Sp : (0 < default_size)%nat) by (unfold default_size; lia). assert (Pk : (1 <= default_pow2 <= 62)%nat) by (unfold default_pow2; lia).
  assert (W : i_w (as_idata data) = w /\ i_h (as_idata data) = h) by (unfold to_data in Hd; destruct (_ || _); [discriminate|]; injection Hd as <-; split; reflexivity). destruct W as [<- <-].
  pose proof (program_inv (as_idata data) default_block fi srt default_cutoff default_size (Z.to_nat num) default_pow2 Him Hs ltac:(lia) C1 Pk c P) as V.
  destruct (simple_evaluated _ default_cutoff default_size (Z.to_nat num) _ C1 (pi_hist _ _ _ _ _ _ _ V)) as (_ & B0 & B1 & _).
  change (nth (c_best c) (c_store c) [] = nth 0 (members c) []) in B0. change (c_bestfit c = nth 0 (c_fits c) f0) in B1.
  unfold best_slice, buf, stats_best. cbv zeta. rewrite B0, B1.
  exact (C74_picture image data (as_idata data) default_block fi srt default_cutoff default_size (Z.to_nat num) default_pow2 c 0%nat (proj1 Hi) Hd eq_refl Him Hs ltac:(lia) C1 Pk P Sp).
Qed.
Print Assumptions C74_default.

(** * Concrete cases *)
(** An image with a red left half: of the ten pixels of the triangle seven are red. *)
Definition halves : goimage := GoImage 6 6 (fun x y => if x <? 3 then (65535, 0, 0) else (0, 0, 0)).
Lemma halves_conforming : conforming halves.
Proof. intros x y. unfold halves. cbn [g_at]. destruct (x <? 3); lia. Qed.
Definition is_level (im : idata) (p : Z * Z) (v : Z) : bool := match i_at im (fst p) (snd p) with Some c => is_finite (cr c) && feq (cr c) (f64_of_Z v) | None => false end.
Lemma is_level_ok im p v : Z.abs v <= 2 ^ 53 -> is_level im p v = true -> level im cr p = IZR v.
Proof.
  unfold is_level, level. intros B. destruct (i_at im (fst p) (snd p)) as [c|]; [|discriminate]. intros H. apply andb_prop in H. destruct H as [F E]. destruct (of_Z_R v B) as [Fv Ev].
  rewrite (feq_R _ _ F Fv) in E. destruct (Req_bool_spec (R64 (cr c)) (R64 (f64_of_Z v))) as [K|K]; [|discriminate]. rewrite K. exact Ev.
Qed.
Lemma levels im l vs : Forall2 (fun p v => Z.abs v <= 2 ^ 53 /\ is_level im p v = true) l vs -> total (level im cr) l = IZR (fold_right Z.add 0 vs).
Proof. induction 1 as [|p v l vs [B H] F IH]; [reflexivity|]. rewrite total_cons, IH, (is_level_ok im p v B H). cbn [fold_right]. rewrite plus_IZR. reflexivity. Qed.
Definition half_tri : tri := Tri (Pt 1 1) (Pt 6 2) (Pt 2 6).
Lemma half_levels : match to_data halves with Some d => forallb (fun p => is_level (as_idata d) p (if fst p <? 3 then 1 else 0)) (dda_pixels half_tri) | None => false end = true.
Proof. vm_compute. reflexivity. Qed.
Lemma half_count : length (dda_pixels half_tri) = 14%nat.
Proof. vm_compute. reflexivity. Qed.
Lemma half_sum : fold_right Z.add 0 (map (fun p => if fst p <? 3 then 1 else 0) (dda_pixels half_tri)) = 8.
Proof. vm_compute. reflexivity. Qed.
Example C74_mean_case : exists d o, to_data halves = Some d /\ triangle_on_image (as_idata d) half_tri = Some o /\ (Rabs (B2R (cr (td_color o)) - 8 / 14) <= 17 / 2 ^ 54)%R.
Proof.
  destruct (to_data_spec halves ltac:(cbn; lia) ltac:(cbn; lia) halves_conforming) as (d & E & W & H & _). cbn [g_maxx g_maxy halves] in W, H.
  pose proof (good_to_data halves d ltac:(cbn; lia) ltac:(cbn; lia) halves_conforming E) as G.
  assert (W' : i_w (as_idata d) = 6) by exact W. assert (H' : i_h (as_idata d) = 6) by exact H.
  destruct (C74_mean (as_idata d) half_tri G) as (o & Eo & K); [rewrite W'; lia|rewrite H'; lia| |].
  { rewrite W', H'. intros p [<-|[<-|[<-|[]]]]; cbn; lia. }
  exists d, o. split; [exact E|]. split; [exact Eo|]. specialize (K cr (or_introl eq_refl)).
  pose proof half_levels as L. rewrite E in L. pose proof half_count as N. pose proof half_sum as S. revert K L N S. generalize (dda_pixels half_tri). intros l K L N S.
  assert (Es : sampled (as_idata d) l [ta half_tri; tb half_tri; tc half_tri] = l) by (unfold sampled; destruct l; [discriminate|reflexivity]). rewrite Es in K. clear Es.
  unfold mean in K. rewrite (levels (as_idata d) l (map (fun p => if fst p <? 3 then 1 else 0) l)) in K.
  - rewrite S, N in K. unfold mean_slack in K. change (Z.of_nat 14) with 14 in K. replace (INR 14 + 3)%R with 17%R in K by (cbn; lra). exact K.
  - rewrite forallb_forall in L. clear - L. induction l as [|p l IH]; cbn [map]; constructor; [split; [destruct (fst p <? 3); lia|apply L; left; reflexivity]|apply IH; intros x I; apply L; right; exact I].
Qed.

(** A run on a 100x100 image whose members have the four points of C72_case. *)
Definition stripes : goimage := GoImage 100 100 (fun x y => (257 * ((40 * x + 11 * y) mod 256), 257 * ((70 * y) mod 256), 257 * ((5 * x * y) mod 256))).
Lemma stripes_conforming : conforming stripes.
Proof.
  intros x y. unfold stripes. cbn [g_at]. pose proof (Z.mod_pos_bound (40 * x + 11 * y) 256 ltac:(lia)). pose proof (Z.mod_pos_bound (70 * y) 256 ltac:(lia)). pose proof (Z.mod_pos_bound (5 * x * y) 256 ltac:(lia)). lia.
Qed.
Lemma stripes_usual : usual_image stripes.
Proof. split; [exact stripes_conforming|]. cbn. lia. Qed.
Notation four_pts := (map (to_norm 100 100) P_Draw.four).
Lemma four_groups : point_groups 2 4 (repeat four_pts 2).
Proof. split; [reflexivity|]. apply (pts_ok four_pts). vm_compute. reflexivity. Qed.
Lemma four_points : map (fun p => render_point p 100 100) four_pts = P_Draw.four.
Proof. vm_compute. reflexivity. Qed.
Lemma differ (x y : f64) : is_finite y = true -> feq x y = false -> x <> y.
Proof. intros F H ->. rewrite (feq_R _ _ F F) in H. rewrite Req_bool_true in H by reflexivity. discriminate. Qed.
Lemma four_rounds : Forall (rounds_alike 100 100) four_pts.
Proof.
  assert (K : forallb (fun p => negb (feq (fmul (nx p) (f64_of_Z 100)) (f64_dy (2 ^ 53 - 1) (-54))) && negb (feq (fmul (ny p) (f64_of_Z 100)) (f64_dy (2 ^ 53 - 1) (-54)))) four_pts = true) by (vm_compute; reflexivity).
  assert (F : is_finite (f64_dy (2 ^ 53 - 1) (-54)) = true) by (vm_compute; reflexivity).
  rewrite forallb_forall in K. apply Forall_forall. intros p I. specialize (K p I). apply andb_prop in K. destruct K as [A B]. apply negb_true_iff in A, B. split; apply differ; assumption.
Qed.
Definition general (Q : list point) : bool :=
  forallb (fun a => forallb (fun b => forallb (fun c => forallb (fun p => (orient a b c =? 0) || negb (incirc a b c p =? 0) || existsb (peq p) [a; b; c]) Q) Q) Q) Q.
Lemma general_ok Q : general Q = true -> no_four_on_a_circle Q.
Proof.
  unfold general. intros H a b c p Ia Ib Ic Ip N (X & Y & M & HM & Hb & Hc & Hp). rewrite forallb_forall in H. specialize (H a Ia). rewrite forallb_forall in H. specialize (H b Ib). rewrite forallb_forall in H. specialize (H c Ic).
  rewrite forallb_forall in H. specialize (H p Ip). apply orb_prop in H. destruct H as [H|H].
  - exfalso. apply orb_prop in H. destruct H as [H|H]; [apply Z.eqb_eq in H; contradiction|]. apply negb_true_iff, Z.eqb_neq in H. apply H.
    pose proof (L_Circle.circle_identity a b c p X Y M Hb Hc) as E. rewrite Hp, Z.sub_diag, Z.mul_0_l in E. assert (M * M <> 0) by nia. nia.
  - apply existsb_exists in H. destruct H as (q & Iq & E). apply L_GMap.peq_true in E. subst q. exact Iq.
Qed.
Definition four_tris : list tri := quad (Pt 80 25) (Pt 75 80) (Pt 15 70) (Pt 20 20).
Lemma four_frame : frame_outside 100 100 four_tris.
Proof.
  assert (K : forallb (fun t => (0 <? orient (ta t) (tb t) (tc t)) && forallb (fun p => incirc (ta t) (tb t) (tc t) p <? 0) (let s := new_super_triangle 100 100 in [d_a s; d_b s; d_c s])) four_tris = true) by (vm_compute; reflexivity).
  revert K. unfold frame_outside. generalize four_tris. cbv zeta. generalize [d_a (new_super_triangle 100 100); d_b (new_super_triangle 100 100); d_c (new_super_triangle 100 100)]. intros fr ts K t p It Ip C.
  rewrite forallb_forall in K. specialize (K t It). apply andb_prop in K. destruct K as [O K]. apply Z.ltb_lt in O. rewrite forallb_forall in K. specialize (K p Ip). apply Z.ltb_lt in K. apply (L_Circle.circle_closed _ _ _ _ O) in C. lia.
Qed.
Lemma four_different : all_different four_tris.
Proof. repeat constructor. intros Sc. assert (I : In (Pt 75 80) [Pt 80 25; Pt 15 70; Pt 20 20]) by (apply (Sc (Pt 75 80)); cbn; auto). cbn in I. intuition discriminate. Qed.
Lemma first_member {E} (ev : evaluator E) g k e s sw c r l : (0 < k)%nat -> Forall (fun g => length g = l /\ Forall pt_in_unit g) (repeat g k) -> valid_schedule k s -> new_simple ev (repeat g k) e s sw = Some (c, r) -> length (c_fits c) = k -> nth 0 (members c) [] = g.
Proof.
  intros Hk Hg Hv E0 Lf. destruct (L_Algo3.new_simple_spec ev (repeat g k) e s sw c r l Hg ltac:(rewrite repeat_length; exact Hv) E0) as (Sh & _ & _ & _ & _ & _ & fs & Lfs & Pm & _).
  rewrite repeat_length in *. destruct Sh as [Pl _ _ _ _ _]. assert (Lm : length (members c) = k) by (unfold members; rewrite map_length; exact Pl).
  assert (I : In (nth 0 (members c) [], nth 0 (c_fits c) f0) (combine (members c) (c_fits c))).
  { rewrite <- combine_nth by congruence. apply nth_In. rewrite combine_length. lia. }
  apply (Permutation_in _ Pm), in_combine_l, repeat_spec in I. exact I.
Qed.
Example C74_case : exists data fi c out, to_data stripes = Some data /\ image_function (as_idata data) 5 fi /\ simple_program fi insertion_sort 1 2 4 3 c /\
  nth 0 (members c) [] = four_pts /\ triangulate four_del four_pts 100 100 = Some four_tris /\ triangles_on_image four_tris (as_idata data) = Some out /\ length out = 2%nat /\
  let s := picture_score (as_idata data) (picture_area four_tris) (picture_error (as_idata data) four_tris (map td_color out)) in
  (s - 0.0000007 <= B2R (nth 0 (c_fits c) f0) <= s + 0.000011)%R /\ picture_area four_tris = 3187.5%R.
Proof.
  assert (Hf : exists fuel, 2 ^ 56 <= Z.of_nat fuel) by (exists (Z.to_nat (2 ^ 56)); rewrite Z2Nat.id; lia). destruct Hf as (fuel & Hf).
  destruct (default_function fuel stripes stripes_usual Hf) as (data & fi & Ed & _ & Him & Ew & Eh). cbn [g_maxx g_maxy stripes] in Ew, Eh. change default_block with 5 in Him.
  destruct (im_size _ _ _ Him) as [Iw Ih]. rewrite Ew in Iw. rewrite Eh in Ih.
  pose proof insertion_hull_sort as Hs. assert (Hl : Z.of_nat 4 <= 32765) by lia. assert (Hk : (1 <= 3 <= 62)%nat) by lia.
  destruct (new_sorts (as_idata data) 5 fi insertion_sort 1 2 4 3 Him Hs Hl ltac:(lia) Hk (repeat four_pts 2) ex_sched ltac:(lia) four_groups ex_sched_ok) as (sw & c & r & W & E0 & S0).
  assert (P : simple_program fi insertion_sort 1 2 4 3 c) by (eapply sp_new; [exact four_groups|exact ex_sched_ok|exact E0|intros _; exact S0]).
  pose proof (pi_len _ _ _ _ _ _ _ (program_inv (as_idata data) 5 fi insertion_sort 1 2 4 3 Him Hs Hl ltac:(lia) Hk c P)) as Lf.
  pose proof (first_member _ four_pts 2 _ ex_sched sw c r 4 ltac:(lia) (proj2 four_groups) ex_sched_ok E0 Lf) as M.
  destruct Him as (G & U & Him'). assert (Him : image_function (as_idata data) 5 fi) by (split; [exact G|]; split; [exact U|exact Him']). clear Him'.
  destruct (C22_triangles_on_image (as_idata data) four_tris G) as (out & Eo & Fo); [lia|lia| |].
  { rewrite <- Iw, <- Ih. repeat constructor; cbn; lia. }
  exists data, fi, c, out. split; [exact Ed|]. split; [exact Him|]. split; [exact P|]. split; [exact M|]. split; [exact four_triangulate|]. split; [exact Eo|].
  split; [clear - Fo; assert (L : forall (ts : list tri) (os : list tridata) (R : tri -> tridata -> Prop), Forall2 R ts os -> length os = length ts) by (induction 1; cbn; congruence); exact (L _ _ _ Fo)|].
  cbv zeta. split.
  - apply (C74_picture stripes data (as_idata data) 5 fi insertion_sort 1 2 4 3 c 0%nat stripes_conforming Ed eq_refl Him Hs Hl ltac:(lia) Hk P ltac:(lia)) with (del := four_del).
    + rewrite M, <- Iw, <- Ih. exact four_rounds.
    + rewrite M, <- Iw, <- Ih. exact four_triangulate.
    + exact Eo.
    + rewrite M, <- Iw, <- Ih, four_points. apply (delaunay_of_perm (rev [Pt 80 25; Pt 75 80; Pt 15 70; Pt 20 20])); [intros p; cbn; tauto|exact four_drawn].
    + exact four_different.
    + rewrite M, <- Iw, <- Ih, four_points. apply general_ok. vm_compute. reflexivity.
    + rewrite <- Iw, <- Ih. exact four_frame.
  - unfold picture_area. cbn [four_tris quad map fold_right ta tb tc px py]. match goal with |- (IZR ?z / 2 = _)%R => let v := eval vm_compute in z in change z with v end. lra.
Qed.
