(** Specification: a point in a convex polygon. *)
From Coq Require Import ZArith List Reals.
From Flocq Require Import IEEE754.BinarySingleNaN.
From Verif Require Import GoNum M_Norm M_Geom S_Geom M_Raster S_Raster M_Delaunay S_Delaunay.
Import ListNotations.
Open Scope Z_scope.

(** [a] to [b] is side [j] of the polygon; the last side leads back to the first corner. *)
Definition side_at {A} (poly : list A) (j : nat) (a b : A) : Prop :=
  nth_error poly j = Some a /\ nth_error poly (S j mod length poly) = Some b.

(** A convex polygon with an area, its corners in the given sense of rotation (1 or -1). *)
Definition convex (sense : Z) (poly : list point) : Prop :=
  (forall j a b v, side_at poly j a b -> In v poly -> 0 <= sense * orient a b v) /\
  (exists j a b v, side_at poly j a b /\ In v poly /\ 0 < sense * orient a b v).

(** [p] is in the convex polygon, borders included. *)
Definition in_convex (sense : Z) (poly : list point) (p : point) : Prop :=
  forall j a b, side_at poly j a b -> 0 <= sense * orient a b p.

(** How far the location [p] is to the left of the line from [a] to [b] (twice the area). *)
Definition left_of (a b p : fpoint) : R :=
  let X q := B2R (nx q) in let Y q := B2R (ny q) in
  ((X b - X a) * (Y p - Y a) - (Y b - Y a) * (X p - X a))%R.

Definition moderate (p : fpoint) : Prop :=
  is_finite (nx p) = true /\ is_finite (ny p) = true /\ (Rabs (B2R (nx p)) <= 8192)%R /\ (Rabs (B2R (ny p)) <= 8192)%R.
