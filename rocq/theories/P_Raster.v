(** Properties C15-C23: rasterisation and rendering. *)
From Coq Require Import ZArith Reals List Bool Lia Permutation.
From Flocq Require Import Core IEEE754.BinarySingleNaN.
From Verif Require Import GoNum FloatLemmas M_Norm S_Norm M_Geom S_Geom M_Raster S_Raster M_Image S_Image M_Render
  L_Raster1 L_Raster2 L_Raster3 L_Raster4 L_Raster5 L_Raster6 L_Render.
Import ListNotations.
Open Scope Z_scope.

(** C15: the rows are exactly ymin, ymin+1, ..., ymax-1, each once, in this order. *)
Theorem C15_rows : forall t : tri,
  (forall e, In e (dda_lines t) -> exists x0 x1 y, e = Line x0 x1 y) /\
  map event_row (dda_lines t) = map (fun k => ymin t + Z.of_nat k) (seq 0 (Z.to_nat (ymax t - ymin t))).
Proof. exact (fun t => conj (dda_lines_only t) (dda_lines_rows t)). Qed.
Print Assumptions C15_rows.
Example C15_case : dda_lines (Tri (Pt 0 0) (Pt 4 1) (Pt 1 3)) = [Line 0 0 0; Line 0 4 1; Line 0 2 2].
Proof. vm_compute. reflexivity. Qed.

(** C16: rows stay inside the bounding box, and are not inverted if the area is not 0. *)
Theorem C16_bounds : forall t x0 x1 y, in_box 24 t -> In (Line x0 x1 y) (dda_lines t) ->
  ymin t <= y < ymax t /\ xmin t <= x0 <= xmax t /\ xmin t <= x1 <= xmax t /\
  (in_box 15 t -> tarea t <> 0 -> x0 <= x1).
Proof. exact (fun t x0 x1 y HB H => match lines_in_box t x0 x1 y HB H with conj a (conj b c) =>
  conj a (conj b (conj c (fun HB' HA => lines_ordered t x0 x1 y HB' HA H))) end). Qed.
Print Assumptions C16_bounds.
Example C16_case : in_box 15 (Tri (Pt 0 0) (Pt 4 1) (Pt 1 3)) /\ tarea (Tri (Pt 0 0) (Pt 4 1) (Pt 1 3)) = 11.
Proof. split; [|reflexivity]. intros p Hp. cbn in Hp. destruct Hp as [<-|[<-|[<-|[]]]]; cbn; lia. Qed.

(** C17: no pixel twice. *)
Theorem C17_no_duplicates : forall t, NoDup (dda_pixels t).
Proof. exact dda_pixels_NoDup. Qed.
Print Assumptions C17_no_duplicates.
Example C17_case : length (dda_pixels (Tri (Pt 0 0) (Pt 4 1) (Pt 1 3))) = 6%nat.
Proof. vm_compute. reflexivity. Qed.

(** C18: lines and blocks cover the same pixels, with multiplicity; the block
    rasteriser terminates. *)
Theorem C18_blocks_equal_lines : forall t bs, 1 <= bs <= 2 ^ 24 -> in_box 24 t ->
  (exists ev N, forall fuel, (N <= fuel)%nat -> dda_blocks fuel t bs = Some ev) /\
  (forall fuel ev, dda_blocks fuel t bs = Some ev -> Permutation (flat_map (event_pixels bs) ev) (dda_pixels t)).
Proof. exact dda_blocks_spec. Qed.
Print Assumptions C18_blocks_equal_lines.
(** ... it does not terminate for block size 0. *)
Theorem C18_block_size_zero_loops : forall fuel, dda_blocks fuel wide 0 = None.
Proof. exact wide_zero. Qed.
Print Assumptions C18_block_size_zero_loops.
Example C18_case : exists ev, dda_blocks 30 (Tri (Pt 0 0) (Pt 12 0) (Pt 0 12)) 3 = Some ev /\
  existsb (fun e => match e with Block _ _ => true | _ => false end) ev = true /\
  length (flat_map (event_pixels 3) ev) = 78%nat.
Proof. eexists. split; [vm_compute; reflexivity|]. split; vm_compute; reflexivity. Qed.

(** C19: vertex order does not matter. *)
Theorem C19_vertex_order : forall t t', Permutation [ta t; tb t; tc t] [ta t'; tb t'; tc t'] -> dda_lines t = dda_lines t'.
Proof. exact dda_lines_perm. Qed.
Print Assumptions C19_vertex_order.
Example C19_case : Permutation [Pt 0 0; Pt 4 1; Pt 1 3] [Pt 1 3; Pt 0 0; Pt 4 1].
Proof. apply Permutation_sym. apply (Permutation_cons_append [Pt 0 0; Pt 4 1] (Pt 1 3)). Qed.

(** C20: coverage depends only on the boundary of the family. *)
Theorem C20_watertight : forall F F' : list tri,
  Forall (fun t => in_box 15 t /\ 0 < tarea t) F -> Forall (fun t => in_box 15 t /\ 0 < tarea t) F' ->
  (forall a b, net F a b = net F' a b) ->
  forall x y, coverage F x y = coverage F' x y.
Proof. exact watertight. Qed.
Print Assumptions C20_watertight.
(** ... so a family whose boundary is that of one triangle covers each pixel as often as that triangle: at most once. *)
Theorem C20_at_most_once : forall F t, Forall (fun t => in_box 15 t /\ 0 < tarea t) F -> in_box 15 t -> 0 < tarea t ->
  (forall a b, net F a b = net [t] a b) ->
  forall x y, coverage F x y = coverage [t] x y /\ 0 <= coverage F x y <= 1.
Proof.
  exact (fun F t HF HB HA HN x y =>
    let E := watertight F [t] HF (Forall_cons t (conj HB HA) (Forall_nil _)) HN x y in
    conj E (eq_ind_r (fun c => 0 <= c <= 1) (coverage_single t x y) E)).
Qed.
Print Assumptions C20_at_most_once.
Theorem C20_shared_edge : forall a b c d, let t1 := Tri a b c in let t2 := Tri b a d in
  in_box 15 t1 -> in_box 15 t2 -> 0 < tarea t1 -> 0 < tarea t2 ->
  forall p, ~ (In p (dda_pixels t1) /\ In p (dda_pixels t2)).
Proof. exact adjacent. Qed.
Print Assumptions C20_shared_edge.
Example C20_case : let F := [Tri (Pt 0 0) (Pt 9 2) (Pt 4 3); Tri (Pt 9 2) (Pt 3 8) (Pt 4 3); Tri (Pt 3 8) (Pt 0 0) (Pt 4 3)] in
  let t := Tri (Pt 0 0) (Pt 9 2) (Pt 3 8) in
  forallb (fun t => 0 <? tarea t) (t :: F) = true /\
  forallb (fun '(a, b) => net F a b =? net [t] a b) (flat_map tedges (t :: F)) = true /\
  coverage F 4 3 = 1 /\ coverage F 8 7 = 0.
Proof. vm_compute. auto. Qed.

(** C21: polygons. *)
Theorem C21_polygons : forall p bs, 1 <= bs <= 2 ^ 24 -> (forall q, In q p -> Z.abs (px q) <= 2 ^ 24 /\ Z.abs (py q) <= 2 ^ 24) ->
  dda_polygon p = flat_map dda_pixels (polygon_triangulate p) /\
  (exists ev N, forall fuel, (N <= fuel)%nat -> dda_polygon_blocks fuel p bs = Some ev) /\
  (forall fuel ev, dda_polygon_blocks fuel p bs = Some ev -> Permutation (flat_map (event_pixels bs) ev) (dda_polygon p)).
Proof. exact (fun p bs Hb HB => conj eq_refl (dda_polygon_blocks_spec p bs Hb HB)). Qed.
Print Assumptions C21_polygons.
Example C21_case : exists ev, dda_polygon_blocks 40 [Pt 0 0; Pt 12 0; Pt 12 12; Pt 0 12] 3 = Some ev /\
  length (flat_map (event_pixels 3) ev) = 144%nat.
Proof. eexists. split; vm_compute; reflexivity. Qed.

(** C22: rendering triangles; the result [Some _] means that no pixel outside the image was read. *)
Theorem C22_triangles_on_image : forall im ts, good_image im -> 1 <= i_w im <= 2 ^ 24 -> 1 <= i_h im <= 2 ^ 24 ->
  Forall (fun t => Forall (fun p => 0 <= px p <= i_w im /\ 0 <= py p <= i_h im) [ta t; tb t; tc t]) ts ->
  exists out, triangles_on_image ts im = Some out /\
    Forall2 (fun t d =>
      td_tri d = (to_norm (i_w im) (i_h im) (ta t), to_norm (i_w im) (i_h im) (tb t), to_norm (i_w im) (i_h im) (tc t)) /\
      rgb_unit (td_color d)) ts out.
Proof. exact triangles_render. Qed.
Print Assumptions C22_triangles_on_image.

(** C23: rendering polygons. *)
Theorem C23_polygons_on_image : forall im ps, good_image im -> 1 <= i_w im <= 2 ^ 24 -> 1 <= i_h im <= 2 ^ 24 ->
  Forall (fun p => Forall (fun q => 0 <= px q <= i_w im /\ 0 <= py q <= i_h im) p /\ p <> [] /\
    i_w im * i_h im * Z.of_nat (length p) < 2 ^ 53) ps ->
  exists out, polygons_on_image ps im = Some out /\
    Forall2 (fun p d => pd_poly d = map (to_norm (i_w im) (i_h im)) p /\ rgb_unit (pd_color d)) ps out.
Proof. exact polygons_render. Qed.
Print Assumptions C23_polygons_on_image.

(** A 4x4 white image with one corner black, two triangles. *)
Definition demo_image : idata :=
  IData 4 4 (fun x y => if (0 <=? x) && (x <? 4) && (0 <=? y) && (y <? 4) then
     Some (if (x =? 0) && (y =? 0) then RGB f0 f0 f0 else RGB f1 f1 f1) else None).
Example C22_case : good_image demo_image /\
  option_map (map (fun d => feq (cr (td_color d)) f1)) (triangles_on_image [Tri (Pt 0 0) (Pt 4 0) (Pt 0 4); Tri (Pt 4 0) (Pt 4 4) (Pt 0 4)] demo_image)
  = Some [false; true].
Proof.
  split; [|vm_compute; reflexivity].
  split; [cbn; lia|]. split; [cbn; lia|]. intros x y Hx Hy. cbn in Hx, Hy. cbn [i_at demo_image].
  destruct (Z.leb_spec 0 x), (Z.ltb_spec x 4), (Z.leb_spec 0 y), (Z.ltb_spec y 4); try lia. cbn [andb].
  eexists. split; [reflexivity|].
  assert (U0 : in_unit f0) by (split; [reflexivity|]; rewrite f0_R; split; [apply Rle_refl|apply Rle_0_1]).
  assert (U1 : in_unit f1) by (split; [reflexivity|]; rewrite f1_R; split; [apply Rle_0_1|apply Rle_refl]).
  destruct (_ && _); (split; [assumption|split; assumption]).
Qed.
Example C23_case :
  option_map (map (fun d => feq (cr (pd_color d)) f1)) (polygons_on_image [[Pt 1 0; Pt 4 0; Pt 4 4; Pt 1 4]; [Pt 4 4]; [Pt 0 0; Pt 2 0; Pt 2 2; Pt 0 2]] demo_image)
  = Some [true; true; false].
Proof. vm_compute. reflexivity. Qed.
