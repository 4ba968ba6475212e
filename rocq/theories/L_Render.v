(** Proofs for package render (C22, C23). *)
From Coq Require Import ZArith Reals List Bool Lia Lra Permutation.
From Flocq Require Import Core IEEE754.BinarySingleNaN.
From Verif Require Import GoNum FloatLemmas M_Norm S_Norm M_Geom S_Geom M_Raster S_Raster M_Image S_Image L_Image M_Render
  L_Raster1 L_Raster2 L_Raster3 L_Raster4 L_Raster5.
Import ListNotations.
Open Scope Z_scope.

(** Positions inside the image. *)
Definition inside (im : idata) (p : Z * Z) : Prop := 0 <= fst p < i_w im /\ 0 <= snd p < i_h im.

Lemma add_pixels_None im l : fold_left (fun acc p =>
    match acc, i_at im (fst p) (snd p) with Some a, Some c => Some (avg_add a c) | _, _ => None end) l None = None.
Proof. induction l as [|p l IH]; [reflexivity|exact IH]. Qed.

Lemma add_pixels_ok im l : good_image im -> Forall (inside im) l -> forall a,
  exists cs, add_pixels im a l = Some (fold_left avg_add cs a) /\ length cs = length l /\ Forall rgb_unit cs /\
    Forall2 (fun p c => i_at im (fst p) (snd p) = Some c) l cs.
Proof.
  intros (Hw & Hh & HI) F. induction F as [|[x y] l [Hx Hy] F IH]; intros a.
  - exists []. repeat split; constructor.
  - cbn in Hx, Hy. destruct (HI x y Hx Hy) as (c & Ec & Uc). destruct (IH (avg_add a c)) as (cs & E & L & U & M).
    exists (c :: cs). split.
    + unfold add_pixels in *. cbn [fold_left fst snd]. rewrite Ec. exact E.
    + split; [cbn; lia|]. split; constructor; auto.
Qed.

Lemma go_min_spec a b : go_min a b = Z.min a b.
Proof. unfold go_min. destruct (Z.ltb_spec a b); lia. Qed.

Definition vertex_inside (im : idata) (p : point) : Prop := 0 <= px p <= i_w im /\ 0 <= py p <= i_h im.

Lemma vertices_inside im l : 1 <= i_w im -> 1 <= i_h im -> Forall (vertex_inside im) l ->
  Forall (inside im) (map (fun p => (go_min (px p) (i_w im - 1), go_min (py p) (i_h im - 1))) l).
Proof.
  intros Hw Hh F. apply Forall_map. eapply Forall_impl; [|exact F]. intros p [A B]. unfold inside. cbn [fst snd].
  rewrite !go_min_spec. lia.
Qed.

Lemma tri_pixels_inside im t : i_w im <= 2 ^ 24 -> i_h im <= 2 ^ 24 -> Forall (vertex_inside im) (verts t) ->
  Forall (inside im) (dda_pixels t).
Proof.
  intros Hw Hh F. rewrite Forall_forall in F. apply Forall_forall. intros [x y] H.
  assert (HB : in_box 24 t). { intros p Hp. specialize (F p Hp). unfold vertex_inside in F. lia. }
  unfold dda_pixels in H. apply in_flat_map in H. destruct H as (e & He & H).
  destruct (dda_lines_only t e He) as (x0 & x1 & y' & ->). unfold line_pixels in H. apply in_map_iff in H.
  destruct H as (x' & Q & Hx). injection Q as -> ->. apply zfor_In in Hx.
  destruct (lines_in_box t x0 x1 y HB He) as (A & B & C).
  assert (Fa := F (ta t) ltac:(cbn; auto)). assert (Fb := F (tb t) ltac:(cbn; auto)). assert (Fc := F (tc t) ltac:(cbn; auto)).
  unfold vertex_inside, inside, xmin, xmax, ymin, ymax in *. cbn [fst snd]. lia.
Qed.

(** A triangle has at most 2^50 pixels (enough for [C10]). *)
Lemma flat_map_length_le {A B} (f : A -> list B) n l : (forall a, In a l -> Z.of_nat (length (f a)) <= n) ->
  0 <= n -> Z.of_nat (length (flat_map f l)) <= n * Z.of_nat (length l).
Proof.
  intros H Hn. induction l as [|a l IH]; [cbn; lia|]. cbn [flat_map length]. rewrite app_length.
  pose proof (H a (or_introl eq_refl)). assert (forall b, In b l -> Z.of_nat (length (f b)) <= n) by (intros; apply H; now right).
  specialize (IH H1). nia.
Qed.

Lemma zfor_length lo hi : Z.of_nat (length (zfor lo hi)) = Z.max 0 (hi - lo).
Proof. unfold zfor. rewrite map_length, seq_length. lia. Qed.

Lemma dda_pixels_length t : in_box 24 t -> Z.of_nat (length (dda_pixels t)) <= 2 ^ 50.
Proof.
  intros HB. unfold dda_pixels.
  assert (R : Z.of_nat (length (dda_lines t)) <= 2 ^ 25).
  { pose proof (dda_lines_rows t) as E. apply (f_equal (@length Z)) in E. rewrite map_length in E. rewrite E, zfor_length.
    assert (Fa := HB (ta t) ltac:(cbn; auto)). assert (Fb := HB (tb t) ltac:(cbn; auto)). assert (Fc := HB (tc t) ltac:(cbn; auto)).
    unfold ymin, ymax. lia. }
  eapply Z.le_trans; [apply (flat_map_length_le _ (2 ^ 25))|].
  - intros e He. destruct (dda_lines_only t e He) as (x0 & x1 & y & ->). unfold line_pixels. rewrite map_length, zfor_length.
    destruct (lines_in_box t x0 x1 y HB He) as (_ & A & B).
    assert (Fa := HB (ta t) ltac:(cbn; auto)). assert (Fb := HB (tb t) ltac:(cbn; auto)). assert (Fc := HB (tc t) ltac:(cbn; auto)).
    unfold xmin, xmax in *. lia.
  - lia.
  - lia.
Qed.

Lemma average_of im l : good_image im -> Forall (inside im) l -> Z.of_nat (length l) < 2 ^ 53 ->
  exists a, add_pixels im avg0 l = Some a /\ a_count a = Z.of_nat (length l) /\ (l <> [] -> rgb_unit (avg_average a)) /\ (l = [] -> a = avg0).
Proof.
  intros G F HL. destruct (add_pixels_ok im l G F avg0) as (cs & E & L & U & _). exists (fold_left avg_add cs avg0). split; [exact E|].
  destruct cs as [|c cs].
  - destruct l; [|discriminate]. split; [reflexivity|]. split; [congruence|reflexivity].
  - destruct (average_ok (c :: cs)) as [A B]; [rewrite L; cbn [length] in *; lia|exact U|].
    split; [rewrite A, L; reflexivity|]. split; [auto|]. intros ->. discriminate.
Qed.

Lemma render_one im pix vs : good_image im -> 1 <= i_w im -> 1 <= i_h im -> Forall (inside im) pix -> Z.of_nat (length pix) < 2 ^ 53 ->
  vs <> [] -> Z.of_nat (length vs) < 2 ^ 53 -> Forall (vertex_inside im) vs ->
  exists a c, add_pixels im avg0 pix = Some a /\
    (if a_count a =? 0 then add_vertices im a vs else Some a) = Some c /\ rgb_unit (avg_average c).
Proof.
  intros G Hw Hh F HL Hv HLv Fv. destruct (average_of im pix G F HL) as (a & E & C & U & N). exists a.
  rewrite C. destruct (Z.eqb_spec (Z.of_nat (length pix)) 0) as [Z0|NZ].
  - assert (pix = []) as -> by (destruct pix; [reflexivity|cbn in Z0; lia]). rewrite (N eq_refl) in *. unfold add_vertices.
    pose proof (vertices_inside im vs Hw Hh Fv) as Fi.
    destruct (average_of im _ G Fi) as (c & E' & C' & U' & _); [rewrite map_length; exact HLv|]. exists c.
    split; [exact E|]. split; [exact E'|]. apply U'. destruct vs; [congruence|discriminate].
  - exists a. split; [exact E|]. split; [reflexivity|]. apply U. destruct pix; [cbn in NZ; lia|discriminate].
Qed.

Lemma triangles_render im ts : good_image im -> 1 <= i_w im <= 2 ^ 24 -> 1 <= i_h im <= 2 ^ 24 ->
  Forall (fun t => Forall (vertex_inside im) (verts t)) ts ->
  exists out, triangles_on_image ts im = Some out /\
    Forall2 (fun t d => td_tri d = tri_to_norm (i_w im) (i_h im) t /\ rgb_unit (td_color d)) ts out.
Proof.
  intros G Hw Hh F. unfold triangles_on_image. induction F as [|t ts Ft F IH].
  - exists []. split; [reflexivity|constructor].
  - destruct IH as (out & E & A).
    assert (HB : in_box 24 t). { intros p Hp. rewrite Forall_forall in Ft. specialize (Ft p Hp). unfold vertex_inside in Ft. lia. }
    destruct (render_one im (dda_pixels t) (verts t)) as (a & c & E1 & E2 & U); auto; try lia.
    { apply tri_pixels_inside; auto; lia. } { pose proof (dda_pixels_length t HB). lia. } { discriminate. } { cbn; lia. }
    unfold verts in E2. eexists. split.
    + cbn [mapM]. unfold triangle_on_image at 1. rewrite E1, E2, E. reflexivity.
    + constructor; [split; [reflexivity|exact U]|exact A].
Qed.

Lemma tri_pixels_count im t : i_w im <= 2 ^ 24 -> i_h im <= 2 ^ 24 -> 0 <= i_w im -> 0 <= i_h im -> Forall (vertex_inside im) (verts t) ->
  Z.of_nat (length (dda_pixels t)) <= i_w im * i_h im.
Proof.
  intros Hw Hh Hw0 Hh0 F. rewrite Forall_forall in F. unfold dda_pixels.
  assert (HB : in_box 24 t). { intros p Hp. specialize (F p Hp). unfold vertex_inside in F. lia. }
  assert (Fa := F (ta t) ltac:(cbn; auto)). assert (Fb := F (tb t) ltac:(cbn; auto)). assert (Fc := F (tc t) ltac:(cbn; auto)).
  unfold vertex_inside in Fa, Fb, Fc.
  assert (R : Z.of_nat (length (dda_lines t)) <= i_h im).
  { pose proof (dda_lines_rows t) as E. apply (f_equal (@length Z)) in E. rewrite map_length in E. rewrite E, zfor_length.
    unfold ymin, ymax. lia. }
  eapply Z.le_trans; [apply (flat_map_length_le _ (i_w im))|].
  - intros e He. destruct (dda_lines_only t e He) as (x0 & x1 & y & ->). unfold line_pixels. rewrite map_length, zfor_length.
    destruct (lines_in_box t x0 x1 y HB He) as (_ & A & B). unfold xmin, xmax in *. lia.
  - exact Hw0.
  - nia.
Qed.

Lemma fan_len p : (length (polygon_triangulate p) <= length p)%nat.
Proof.
  destruct p as [|p0 [|p1 r]]; cbn [polygon_triangulate length]; try lia.
  assert (G : forall prev, length (fan_from p0 prev r) = length r) by (induction r; intros; cbn; auto). rewrite G. lia.
Qed.

Lemma polygons_render im ps : good_image im -> 1 <= i_w im <= 2 ^ 24 -> 1 <= i_h im <= 2 ^ 24 ->
  Forall (fun p => Forall (vertex_inside im) p /\ p <> [] /\ i_w im * i_h im * Z.of_nat (length p) < 2 ^ 53) ps ->
  exists out, polygons_on_image ps im = Some out /\
    Forall2 (fun p d => pd_poly d = map (to_norm (i_w im) (i_h im)) p /\ rgb_unit (pd_color d)) ps out.
Proof.
  intros G Hw Hh F. unfold polygons_on_image. induction F as [|p ps (Fp & Np & Lp) F IH].
  - exists []. split; [reflexivity|constructor].
  - destruct IH as (out & E & A).
    assert (FT : forall t, In t (polygon_triangulate p) -> Forall (vertex_inside im) (verts t)).
    { intros t Ht. apply Forall_forall. intros q Hq. rewrite Forall_forall in Fp. apply Fp. eapply fan_verts; eauto. }
    destruct (render_one im (flat_map dda_pixels (polygon_triangulate p)) p) as (a & c & E1 & E2 & U); auto; try lia.
    { apply Forall_forall. intros q Hq. apply in_flat_map in Hq. destruct Hq as (t & Ht & Hq).
      pose proof (tri_pixels_inside im t ltac:(lia) ltac:(lia) (FT t Ht)) as Q. rewrite Forall_forall in Q. auto. }
    { assert (Z.of_nat (length (flat_map dda_pixels (polygon_triangulate p))) <= (i_w im * i_h im) * Z.of_nat (length (polygon_triangulate p))).
      { apply flat_map_length_le; [|nia]. intros t Ht. apply tri_pixels_count; auto; lia. }
      pose proof (fan_len p). assert (0 <= i_w im * i_h im) by nia. nia. }
    eexists. split.
    + cbn [mapM]. unfold polygon_on_image at 1. rewrite E1, E2, E. reflexivity.
    + constructor; [split; [reflexivity|exact U]|exact A].
Qed.
