(** Colours closest to an image, and the error of a picture (C74). *)
From Coq Require Import ZArith Reals List.
From Flocq Require Import IEEE754.BinarySingleNaN.
From Verif Require Import GoNum M_Norm M_Geom M_Raster M_Image S_Delaunay M_Delaunay S_Draw.
Import ListNotations.
Open Scope R_scope.

(** The sum of [f] over a list, and the mean. *)
Definition total {A} (f : A -> R) (l : list A) : R := fold_right (fun a s => f a + s) 0 l.
Definition mean {A} (f : A -> R) (l : list A) : R := total f l / IZR (Z.of_nat (length l)).

(** The three channels of a colour, and a channel of the image at a position. *)
Definition channel (ch : rgb -> f64) : Prop := ch = cr \/ ch = cg \/ ch = cb.
Definition level (im : idata) (ch : rgb -> f64) (p : Z * Z) : R :=
  match i_at im (fst p) (snd p) with Some c => B2R (ch c) | None => 0 end.

(** The squared distance of the pixels [l] of the image from the colour (r,g,b). *)
Definition sq_error (im : idata) (l : list (Z * Z)) (r g b : R) : R :=
  total (fun p => (level im cr p - r) * (level im cr p - r) + (level im cg p - g) * (level im cg p - g) + (level im cb p - b) * (level im cb p - b)) l.
Definition error_of (im : idata) (l : list (Z * Z)) (c : rgb) : R := sq_error im l (B2R (cr c)) (B2R (cg c)) (B2R (cb c)).

(** The pixels a shape takes its colour from: those it covers, or, if there are none, the
    ones at its corners (the right and the lower edge of the image belong to the last
    column and row). *)
Definition sampled (im : idata) (covers : list (Z * Z)) (corners : list point) : list (Z * Z) :=
  match covers with [] => map (fun p => (Z.min (px p) (i_w im - 1), Z.min (py p) (i_h im - 1))%Z) corners | _ => covers end.

(** How far a mean of [n] numbers of [0,1] calculated in float64 may be off. *)
Definition mean_slack (n : nat) : R := (INR n + 3) / 2 ^ 54.

(** The error of a picture: every triangle in its colour, on the pixels it covers. *)
Definition picture_error (im : idata) (ts : list tri) (colors : list rgb) : R :=
  total (fun tc => error_of im (dda_pixels (fst tc)) (snd tc)) (combine ts colors).
(** The score of a picture of which [area] pixels are covered: 1 if it is the image, and a
    pixel that is not covered counts as one in the worst colour. *)
Definition picture_score (im : idata) (area err : R) : R := 1 - (err / 3 + (IZR (i_w im * i_h im) - area)) / IZR (i_w im * i_h im).

(** The area of triangles (their vertices are lattice points). *)
Definition picture_area (ts : list tri) : R :=
  IZR (fold_right Z.add 0%Z (map (fun t => Z.abs ((px (tb t) - px (ta t)) * (py (tc t) - py (ta t)) - (px (tc t) - px (ta t)) * (py (tb t) - py (ta t)))) ts)) / 2.

(** No four points on a circle, and no two triangles with the same corners. *)
Definition no_four_on_a_circle (Q : list point) : Prop := forall a b c p, In a Q -> In b Q -> In c Q -> In p Q -> orient a b c <> 0%Z ->
  (exists X Y M, (0 < M)%Z /\ sdist2 X Y M b = sdist2 X Y M a /\ sdist2 X Y M c = sdist2 X Y M a /\ sdist2 X Y M p = sdist2 X Y M a) -> In p [a; b; c].
Definition all_different (ts : list tri) : Prop := ForallOrdPairs (fun t u => ~ same_corners (ta t) (tb t) (tc t) (ta u) (tb u) (tc u)) ts.
(** The corners of the enclosing triangle of the image are outside the circumcircles of [ts]. *)
Definition frame_outside (w h : Z) (ts : list tri) : Prop := forall t p, In t ts -> (let s := new_super_triangle w h in In p [d_a s; d_b s; d_c s]) ->
  ~ in_closed_circumcircle (ta t) (tb t) (tc t) p.
