(** C66: the score of a polygon. *)
From Coq Require Import ZArith Reals List Bool Arith Lia Lra Permutation Psatz.
From Flocq Require Import Core IEEE754.BinarySingleNaN.
From Verif Require Import GoNum FloatLemmas M_Norm S_Norm M_Slice M_Geom S_Geom M_Image S_Image L_Image M_Raster S_Raster L_Raster3 M_Delaunay S_Delaunay M_Algo S_Algo M_Fitness S_Fitness L_Sums L_Var
  M_Voronoi S_Voronoi M_Polygons S_Polygons S_PolySum L_Span L_PolySum L_Poly P_Fitness P_Remove P_Voronoi.
Import ListNotations.
Open Scope Z_scope.

Lemma fan_is poly : polygon_triangulate poly = fan poly.
Proof.
  destruct poly as [|p [|q r]]; [reflexivity..|]. cbn [polygon_triangulate fan]. revert q. induction r as [|a r IH]; intros q; [reflexivity|].
  cbn [fan_from combine map fst snd]. rewrite IH. reflexivity.
Qed.
Lemma span_is poly : span poly = line_lengths (fan poly).
Proof.
  unfold span, line_lengths. rewrite fan_is. assert (K : forall e, In e (flat_map dda_lines (fan poly)) -> exists a b c, e = Line a b c).
  { intros e I. apply in_flat_map in I as (t & _ & I). exact (lines_only t e I). }
  revert K. generalize (flat_map dda_lines (fan poly)). induction l as [|e l IH]; intros K; [reflexivity|]. change (e :: l) with ([e] ++ l). rewrite count_app, sum_over_app, IH by (intros e' I; apply K; right; exact I).
  f_equal. destruct (K e (or_introl eq_refl)) as (a & b & c & ->). unfold count. cbn. lia.
Qed.
Lemma pixels_is poly : dda_polygon poly = fan_pixels poly.
Proof. unfold dda_polygon, fan_pixels. rewrite fan_is. reflexivity. Qed.

(** The sums are those of the pixels of the fan triangles, and the number of pixels they
    are divided by is the total length of their lines. *)
Theorem C66_score : forall im fi bs fuel poly, good_image im -> i_w im <= 32767 -> i_h im <= 32767 ->
  1 <= bs <= 16 -> bs <= i_w im + 1 -> bs <= i_h im + 1 -> new_fimg fuel im bs = Some fi -> image_polygon im poly -> Z.of_nat (length poly) <= 2 ^ 15 ->
  let s := pixel_sums im (fan_pixels poly) in let v := diff_of (Sums (line_lengths (fan poly)) (s_r s) (s_g s) (s_b s) (s_sq s)) in
  (forall v', poly_diff fi poly = Some v' -> v' = v) /\ (2 ^ 56 <= Z.of_nat fuel -> poly_diff fi poly = Some v).
Proof.
  intros im fi bs fuel poly G Hw Hh Hbs Hbw Hbh E HP Hl. cbv zeta.
  pose proof (poly_diff_exact im fi bs fuel G Hw Hh Hbs Hbw Hbh E poly HP Hl) as K. unfold with_n in K. rewrite span_is, pixels_is in K. exact K.
Qed.
Print Assumptions C66_score.

(** If no triangle of the fan is a line, the score is that of the pixels. *)
Theorem C66_exact_pixels : forall im fi bs fuel poly, good_image im -> i_w im <= 32767 -> i_h im <= 32767 ->
  1 <= bs <= 16 -> bs <= i_w im + 1 -> bs <= i_h im + 1 -> new_fimg fuel im bs = Some fi -> image_polygon im poly -> Z.of_nat (length poly) <= 2 ^ 15 -> plain_fan poly ->
  let v := diff_of (pixel_sums im (fan_pixels poly)) in
  (forall v', poly_diff fi poly = Some v' -> v' = v) /\ (2 ^ 56 <= Z.of_nat fuel -> poly_diff fi poly = Some v).
Proof.
  intros im fi bs fuel poly G Hw Hh Hbs Hbw Hbh E HP Hl HF. cbv zeta.
  pose proof (C66_score im fi bs fuel poly G Hw Hh Hbs Hbw Hbh E HP Hl) as K. cbv zeta in K. rewrite <- span_is in K. rewrite span_exact in K.
  - rewrite pixels_is in K. exact K.
  - intros p I. destruct (HP p I). change (2 ^ 15) with 32768. lia.
  - intros t I. rewrite fan_is in I. apply HF, I.
Qed.
Print Assumptions C66_exact_pixels.

(** The rounded cells of a diagram in the frame of the image are polygons of the image. *)
Lemma framed_polygon im fi v l : 0 <= fi_w fi <= 32767 -> 0 <= fi_h fi <= 32767 -> fi_w fi = i_w im -> fi_h fi = i_h im -> framed fi v -> In l (iv_iter v) -> image_polygon im (fast_polygon l).
Proof.
  intros Hw Hh Ew Eh F I p Ip. pose proof (fast_polygon_in (fi_w fi) (fi_h fi) l Hw Hh (F l I)) as K. rewrite Forall_forall in K. destruct (K p Ip) as [A B]. lia.
Qed.

Lemma psum_ext fi1 fi2 ls : (forall l, In l ls -> poly_diff fi1 (fast_polygon l) = poly_diff fi2 (fast_polygon l)) -> plain_psum fi1 ls = plain_psum fi2 ls.
Proof.
  unfold plain_psum. generalize f0. induction ls as [|l ls IH]; intros d H; [reflexivity|]. cbn [foldM]. rewrite (H l (or_introl eq_refl)).
  destruct (poly_diff fi2 _); [|reflexivity]. cbn [option_map]. apply IH. intros u Hu. apply H. right. exact Hu.
Qed.
Lemma psum_some fi ls : (forall l, In l ls -> poly_diff fi (fast_polygon l) <> None) -> plain_psum fi ls <> None.
Proof.
  unfold plain_psum. generalize f0. induction ls as [|l ls IH]; intros d H; [discriminate|]. cbn [foldM]. pose proof (H l (or_introl eq_refl)).
  destruct (poly_diff fi _); [|congruence]. cbn [option_map]. apply IH. intros u Hu. apply H. right. exact Hu.
Qed.

(** The fitness of a diagram in the frame is defined and does not depend on the block size. *)
Theorem C66_block_size : forall im fuel bs1 fi1 bs2 fi2 v, good_image im -> i_w im <= 32767 -> i_h im <= 32767 -> 2 ^ 56 <= Z.of_nat fuel ->
  1 <= bs1 <= 16 -> bs1 <= i_w im + 1 -> bs1 <= i_h im + 1 -> new_fimg fuel im bs1 = Some fi1 ->
  1 <= bs2 <= 16 -> bs2 <= i_w im + 1 -> bs2 <= i_h im + 1 -> new_fimg fuel im bs2 = Some fi2 ->
  framed fi1 v -> plain_pfitness fi1 v = plain_pfitness fi2 v /\ plain_pfitness fi1 v <> None.
Proof.
  intros im fuel bs1 fi1 bs2 fi2 v G Hw Hh Hf A1 A2 A3 E1 B1 B2 B3 E2 HF. pose proof G as (g1 & g2 & _).
  destruct (new_fimg_fields _ _ _ _ E1) as (W1 & H1 & M1), (new_fimg_fields _ _ _ _ E2) as (W2 & H2 & M2).
  assert (K : forall l, In l (iv_iter v) -> exists x, poly_diff fi1 (fast_polygon l) = Some x /\ poly_diff fi2 (fast_polygon l) = Some x).
  { intros l I. assert (HP : image_polygon im (fast_polygon l)) by (apply (framed_polygon im fi1 v l); try assumption; lia).
    destruct (poly_diff_wrap im fi1 bs1 fuel G Hw Hh A1 A2 A3 E1 _ HP) as [Q1 N1]. destruct (poly_diff_wrap im fi2 bs2 fuel G Hw Hh B1 B2 B3 E2 _ HP) as [Q2 N2]. specialize (N1 Hf). specialize (N2 Hf).
    destruct (poly_diff fi1 (fast_polygon l)) as [x|]; [|congruence]. destruct (poly_diff fi2 (fast_polygon l)) as [y|]; [|congruence]. rewrite (Q1 x eq_refl), (Q2 y eq_refl). eauto. }
  unfold plain_pfitness. split.
  - rewrite (psum_ext fi1 fi2) by (intros l I; destruct (K l I) as (x & -> & ->); reflexivity). rewrite M1, M2. reflexivity.
  - pose proof (psum_some fi1 (iv_iter v)) as N. destruct (plain_psum fi1 (iv_iter v)); [discriminate|]. exfalso. apply N; [|reflexivity]. intros l I. destruct (K l I) as (x & -> & _). discriminate.
Qed.
Print Assumptions C66_block_size.

(** ... and it is a number, whatever the diagram. *)
Lemma psum_finite im ls : forall k x d, 0 <= k -> k + Z.of_nat (length ls) < 2 ^ 52 -> is_finite x = true -> (Rabs (R64 x) <= IZR k * bpow radix2 65)%R ->
  foldM (fun d l => option_map (fadd d) (poly_diff im (fast_polygon l))) ls x = Some d ->
  is_finite d = true /\ (Rabs (R64 d) <= IZR (k + Z.of_nat (length ls)) * bpow radix2 65)%R.
Proof.
  induction ls as [|l ls IH]; intros k x d Hk Hl Fx Bx; cbn [foldM].
  - intros [= <-]. cbn [length]. rewrite Z.add_0_r. auto.
  - destruct (poly_diff im _) as [v|] eqn:Ev; [|discriminate]. cbn [option_map]. intros H. destruct (poly_diff_finite im _ v Ev) as [Fv Bv].
    cbn [length] in *. rewrite Nat2Z.inj_succ in *. destruct (acc_step k 65 x v ltac:(lia) ltac:(lia) Fx Fv Bx Bv) as [F1 B1].
    specialize (IH (k + 1) _ d ltac:(lia) ltac:(lia) F1 B1 H). replace (k + Z.succ (Z.of_nat (length ls))) with (k + 1 + Z.of_nat (length ls)) by lia. exact IH.
Qed.
Lemma pfitness_finite im v f : Z.of_nat (length (iv_iter v)) < 2 ^ 52 -> is_finite (fi_max im) = true -> (1 <= Rabs (R64 (fi_max im)))%R -> plain_pfitness im v = Some f -> is_finite f = true.
Proof.
  intros Hl Fm Bm. unfold plain_pfitness, plain_psum. destruct (foldM _ _ f0) as [d|] eqn:Ed; [|discriminate]. intros [= <-].
  destruct (psum_finite im (iv_iter v) 0 f0 d ltac:(lia) ltac:(lia) eq_refl) as [F1 B1]; [change (R64 f0) with 0%R; rewrite Rabs_R0; lra|exact Ed|].
  assert (B2 : (Rabs (R64 d) <= bpow radix2 117)%R).
  { eapply Rle_trans; [exact B1|]. change 117 with (52 + 65). rewrite bpow_plus. apply Rmult_le_compat_r; [apply bpow_ge_0|]. change (bpow radix2 52) with (IZR (2 ^ 52)). apply IZR_le. lia. }
  destruct (fdiv_R d (fi_max im) F1 Fm) as [F3 E3].
  { intros Z0. rewrite Z0, Rabs_R0 in Bm. lra. }
  { unfold Rdiv. rewrite Rabs_mult, Rabs_inv. apply Rle_trans with (bpow radix2 117 * 1)%R; [|rewrite Rmult_1_r; apply bpow_le; lia]. apply Rmult_le_compat; [apply Rabs_pos|left; apply Rinv_0_lt_compat; lra|exact B2|].
    rewrite <- Rinv_1. apply Rinv_le; lra. }
  assert (B3 : (Rabs (R64 (fdiv d (fi_max im))) <= bpow radix2 117)%R).
  { rewrite E3. apply rnd_abs_le; [lia|]. unfold Rdiv. rewrite Rabs_mult, Rabs_inv. apply Rle_trans with (bpow radix2 117 * 1)%R; [|lra]. apply Rmult_le_compat; [apply Rabs_pos|left; apply Rinv_0_lt_compat; lra|exact B2|].
    rewrite <- Rinv_1. apply Rinv_le; lra. }
  destruct (fsub_R f1 (fdiv d (fi_max im)) eq_refl F3) as [F4 _]; [|exact F4].
  unfold Rminus. eapply Rle_trans; [apply Rabs_triang|]. rewrite Rabs_Ropp, f1_R, Rabs_R1.
  assert (1 <= bpow radix2 117)%R by (change 1%R with (bpow radix2 0); apply bpow_le; lia).
  assert (2 * bpow radix2 117 <= bpow radix2 1023)%R. { replace (2 * bpow radix2 117)%R with (bpow radix2 118) by (change 118 with (1 + 117); rewrite bpow_plus; reflexivity). apply bpow_le. lia. }
  lra.
Qed.
Theorem C66_fitness_finite : forall im fuel bs fi v f, good_image im -> 1 <= i_w im <= 32767 -> 1 <= i_h im <= 32767 -> new_fimg fuel im bs = Some fi ->
  Z.of_nat (length (iv_iter v)) < 2 ^ 52 -> plain_pfitness fi v = Some f -> is_finite f = true.
Proof.
  intros im fuel bs fi v f G Hw Hh E Hl. destruct (new_fimg_fields _ _ _ _ E) as (_ & _ & M).
  unfold max_pixel_difference in M. rewrite (i64_small (195075 * i_w im)) in M by lia. rewrite (i64_small (195075 * i_w im * i_h im)) in M by nia.
  destruct (of_Z_R (195075 * i_w im * i_h im)) as [F R]; [nia|].
  apply pfitness_finite; [exact Hl|rewrite M; exact F|rewrite M, R, Rabs_right; [apply IZR_le; nia|apply Rle_ge, IZR_le; nia]].
Qed.
Print Assumptions C66_fitness_finite.

(** * A cell whose score is not that of its pixels
    Six points of a 400x400 image.  The rounded corners (250,183), (306,171) and (40,228) of
    the cell of the first point lie on a line, in one row of which DDATriangleLines goes
    one pixel backwards: one pixel is not counted.  On a white image, where every score
    should be 0, the score of the cell is below -195000. *)
Definition lined_pixels : list point := [Pt 105 129; Pt 141 293; Pt 120 84; Pt 81 106; Pt 12 343; Pt 140 292].
Definition lined_cell : list point := [Pt 40 228; Pt 3 212; Pt 106 104; Pt 306 171; Pt 250 183].
Definition snow : idata := IData 400 400 (fun _ _ => Some (RGB f1 f1 f1)).
Lemma snow_good : good_image snow.
Proof. split; [cbn; lia|]. split; [cbn; lia|]. intros x y _ _. exists (RGB f1 f1 f1). split; [reflexivity|]. unfold rgb_unit. cbn [cr cg cb]. assert (in_unit f1) by (split; [reflexivity|]; fold (R64 f1); rewrite f1_R; lra). auto. Qed.
Lemma snow_stored p : stored snow p = Px 255 255 255 195075.
Proof. vm_compute. reflexivity. Qed.
Lemma snow_sums l : let n := Z.of_nat (length l) in pixel_sums snow l = Sums n (255 * n) (255 * n) (255 * n) (195075 * n).
Proof.
  cbv zeta. unfold pixel_sums. assert (K : forall f : pixel -> Z, sum_over (fun p => f (stored snow p)) l = f (Px 255 255 255 195075) * Z.of_nat (length l)).
  { intros f. induction l as [|p l IH]; [cbn [sum_over fold_right length]; lia|]. unfold sum_over in *. cbn [fold_right length]. rewrite IH, snow_stored. lia. }
  f_equal; apply K.
Qed.
Lemma lined_counts : line_lengths (fan lined_cell) = 17441 /\ Z.of_nat (length (fan_pixels lined_cell)) = 17442.
Proof. split; vm_compute; reflexivity. Qed.
Definition has_cell (poly : list point) (o : option ivor) : bool :=
  match o with None => false | Some v => existsb (fun l => if list_eq_dec point_eq_dec (fast_polygon l) poly then true else false) (iv_iter v) end.
Lemma has_cell_ok poly o : has_cell poly o = true -> exists v l, o = Some v /\ In l (iv_iter v) /\ fast_polygon l = poly.
Proof.
  destruct o as [v|]; [|discriminate]. cbn [has_cell]. rewrite existsb_exists. intros (l & I & H). exists v, l. split; [reflexivity|]. split; [exact I|].
  destruct (list_eq_dec point_eq_dec (fast_polygon l) poly); [assumption|discriminate].
Qed.
Lemma lined_has : has_cell lined_cell (iv_history slice_sort insertion_sort 400 400 (map MAdd lined_pixels)) = true.
Proof. vm_compute. reflexivity. Qed.
Lemma image_fn fuel im bs : good_image im -> 1 <= bs <= 16 -> bs <= i_w im + 1 -> bs <= i_h im + 1 -> exists fi, new_fimg fuel im bs = Some fi.
Proof.
  intros G A B C. destruct (from_image_total im G) as (t & Et & _). destruct (from_imageN_spec im bs t G ltac:(lia) B C Et) as (tn & En & _). unfold new_fimg. rewrite Et, En. eauto.
Qed.
Theorem C66_score_refuted : exists pts w h im, usual_size w h /\ (forall p, In p pts -> in_image w h p) /\ good_image im /\ i_w im = w /\ i_h im = h /\ forall bs, 1 <= bs <= 16 ->
  exists v l, iv_history slice_sort insertion_sort w h (map MAdd pts) = Some v /\ In l (iv_iter v) /\
  exists fuel fi s, new_fimg fuel im bs = Some fi /\ poly_diff fi (fast_polygon l) = Some s /\
    feq (diff_of (pixel_sums im (fan_pixels (fast_polygon l)))) f0 = true /\ flt s (f64_of_Z (-195000)) = true.
Proof.
  exists lined_pixels, 400, 400, snow. split; [unfold usual_size; lia|]. split.
  { intros p I. unfold lined_pixels in I. cbn [In] in I. repeat (destruct I as [<-|I]; [unfold in_image; cbn [px py]; lia|]). destruct I. }
  split; [exact snow_good|]. split; [reflexivity|]. split; [reflexivity|]. intros bs Hbs. destruct (has_cell_ok _ _ lined_has) as (v & l & E & I & EL). exists v, l. split; [exact E|]. split; [exact I|].
  rewrite EL. clear v l E I EL. destruct lined_counts as [C1 C2].
  assert (HP : image_polygon snow lined_cell). { intros p I. unfold lined_cell in I. cbn [In] in I. repeat (destruct I as [<-|I]; [cbn; lia|]). destruct I. }
  assert (HL : Z.of_nat (length lined_cell) <= 2 ^ 15) by (cbn; lia). revert C1 C2 HP HL. generalize lined_cell. intros poly C1 C2 HP HL.
  set (fuel := Z.to_nat (2 ^ 56)). assert (Hf : 2 ^ 56 <= Z.of_nat fuel) by (unfold fuel; rewrite Z2Nat.id; lia). clearbody fuel.
  destruct (image_fn fuel snow bs snow_good Hbs ltac:(cbn; lia) ltac:(cbn; lia)) as (fi & E).
  destruct (C66_score snow fi bs fuel poly snow_good ltac:(cbn; lia) ltac:(cbn; lia) Hbs ltac:(cbn; lia) ltac:(cbn; lia) E HP HL) as [_ K]. cbv zeta in K. specialize (K Hf). rewrite snow_sums, C1, C2 in K. cbn [s_r s_g s_b s_sq] in K.
  exists fuel, fi. eexists. split; [exact E|]. split; [exact K|]. rewrite snow_sums, C2. split; vm_compute; reflexivity.
Qed.
Print Assumptions C66_score_refuted.

(** * A polygon without a line in its fan *)
Definition quad : list point := [Pt 1 0; Pt 6 2; Pt 4 6; Pt 0 4].
Definition quad_case (gf : option fimg) : option (Z * Z * Z) :=
  match gf with None => None | Some fi => match poly_diff fi quad, to_data grad with
  | Some v, Some d => Some (micros v, micros (diff_of (pixel_sums (as_idata d) (fan_pixels quad))), Z.of_nat (length (fan_pixels quad))) | _, _ => None end end.
Example C66_case : plain_fan quad /\ quad_case grad_fi = Some (114331333333, 114331333333, 21).
Proof.
  split; [|vm_compute; reflexivity].
  intros t I. cbn [fan quad combine map fst snd In] in I. repeat (destruct I as [<-|I]; [cbn; lia|]). destruct I.
Qed.
