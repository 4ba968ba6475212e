(** Specifications for the score of a polygon (C66). *)
From Coq Require Import ZArith List Bool.
From Verif Require Import GoNum M_Norm M_Geom M_Image S_Image M_Raster S_Raster M_Fitness S_Fitness.
Import ListNotations.
Open Scope Z_scope.

(** A polygon of the image: corners in [0,w]x[0,h]. *)
Definition image_polygon (im : idata) (poly : list point) : Prop := forall p, In p poly -> 0 <= px p <= i_w im /\ 0 <= py p <= i_h im.

(** The triangles of the fan around the first corner. *)
Definition fan (poly : list point) : list tri :=
  match poly with
  | p :: q :: r => map (fun ab => Tri (snd ab) (fst ab) p) (combine (q :: r) r)
  | _ => []
  end.
(** None of them is a line. *)
Definition plain_fan (poly : list point) : Prop := forall t, In t (fan poly) -> tarea t <> 0.

(** Ends minus starts of the lines that DDATriangleLines reports for the triangles. *)
Definition line_lengths (ts : list tri) : Z :=
  sum_over (fun e => match e with Line x0 x1 _ => x1 - x0 | Block _ _ => 0 end) (flat_map dda_lines ts).
(** The pixels of the triangles. *)
Definition fan_pixels (poly : list point) : list (Z * Z) := flat_map dda_pixels (fan poly).
