(** The error of a picture of polygons (C81). *)
From Coq Require Import ZArith Reals List.
From Flocq Require Import IEEE754.BinarySingleNaN.
From Verif Require Import GoNum M_Norm M_Geom M_Image M_Raster M_Render M_Fitness M_Voronoi M_Polygons S_PolySum S_Colour.
Import ListNotations.
Open Scope R_scope.

(** Every polygon in its colour, on the pixels of its fan. *)
Definition polygons_error (im : idata) (ps : list (list point)) (colors : list rgb) : R :=
  total (fun pc => error_of im (fan_pixels (fst pc)) (snd pc)) (combine ps colors).
(** 1 if the picture is the image where there are polygons; the worst colour on all pixels is 0. *)
Definition polygons_score (im : idata) (err : R) : R := 1 - err / 3 / IZR (i_w im * i_h im).
(** How many pixels the polygons cover, those of several polygons several times. *)
Definition pixels_covered (ps : list (list point)) : Z := fold_right (fun p s => (Z.of_nat (length (fan_pixels p)) + s)%Z) 0%Z ps.

(** The fitness [f] of the member at position [i] is the score of the picture of the cells of its
    diagram, every cell in the colour it is rendered in. *)
Definition cells_score (im : idata) (fi : fimg) (p : ppar) (i : nat) (f : f64) : Prop :=
  exists id t v, pat_pos p i = Some (id, t) /\ pf_tri t = Some v /\
    let polys := map fast_polygon (iv_iter v) in
    (forall q, In q polys -> plain_fan q /\ (Z.of_nat (length q) <= 2 ^ 15)%Z) -> (2 * pixels_covered polys <= 3 * (i_w im * i_h im))%Z ->
    exists out, polygons_on_image polys im = Some out /\
      let s := polygons_score im (polygons_error im polys (map pd_color out)) in s - 0.0000013 <= B2R f <= s + 0.000009.
