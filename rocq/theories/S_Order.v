(** Specification: the vertices of a polygon in order around a centre. *)
From Coq Require Import ZArith List Bool Permutation Reals.
From Flocq Require Import IEEE754.BinarySingleNaN.
From Verif Require Import GoNum M_Norm M_Geom S_Geom M_Raster S_Raster M_Delaunay M_Voronoi S_Voronoi S_Corner.
Import ListNotations.

(** All elements are different, and the comparison decides every two of them, consistently. *)
Record strict_order {A} (less : A -> A -> option bool) (l : list A) : Prop := {
  st_nodup : NoDup l;
  st_total : forall x y, In x l -> In y l -> x <> y -> (less x y = Some true /\ less y x = Some false) \/ (less x y = Some false /\ less y x = Some true);
  st_trans : forall x y z, In x l -> In y l -> In z l -> x <> z -> less x y = Some true -> less y z = Some true -> less x z = Some true }.

(** What is assumed of sort.Slice here: it sorts. *)
Definition sorts (srt : sorter) : Prop := forall less l l', strict_order less l -> srt less l = Some l' ->
  forall i j x y, (i < j)%nat -> nth_error l' i = Some x -> nth_error l' j = Some y -> less x y = Some true.

Open Scope R_scope.

(** The location of [p] as seen from [c]. *)
Definition dx (c p : fpoint) : R := B2R (nx p) - B2R (nx c).
Definition dy (c p : fpoint) : R := B2R (ny p) - B2R (ny c).
Definition cross (c a b : fpoint) : R := dx c a * dy c b - dy c a * dx c b.

(** Going round [c] counterclockwise (x to the right, y up), beginning just after the
    direction of y, one meets [a] before [b].  First come the directions to the left; on one
    side, [a] is before [b] if the turn from [a] to [b] is a left turn; straight down comes
    before straight up. *)
Definition before (c a b : fpoint) : Prop :=
  (dx c a < 0 /\ 0 <= dx c b) \/
  (((dx c a < 0 /\ dx c b < 0) \/ (0 <= dx c a /\ 0 <= dx c b)) /\ 0 < cross c a b) \/
  (dx c a = 0 /\ dx c b = 0 /\ dy c a < 0 /\ 0 < dy c b).
Definition in_order (c : fpoint) (l : list fpoint) : Prop :=
  forall i j a b, (i < j)%nat -> nth_error l i = Some a -> nth_error l j = Some b -> before c a b.

(** The directions of [a] and [b] from [c] differ clearly: they are to different sides, or
    straight up and straight down, or [c], [a], [b] span an area of more than 2^-23. *)
Definition clear (c a b : fpoint) : Prop :=
  (dx c a < 0 /\ 0 <= dx c b) \/ (0 <= dx c a /\ dx c b < 0) \/
  (dx c a = 0 /\ dx c b = 0 /\ ((dy c a < 0 /\ 0 < dy c b) \/ (dy c b < 0 /\ 0 < dy c a))) \/
  / 4194304 < Rabs (cross c a b).
Definition all_clear (c : fpoint) (l : list fpoint) : Prop :=
  forall i j a b, i <> j -> nth_error l i = Some a -> nth_error l j = Some b -> clear c a b.

(** [c] is close to the average of the vertices. *)
Definition sum (f : fpoint -> R) (l : list fpoint) : R := fold_right (fun p s => f p + s) 0 l.
Definition near_average (e : R) (c : fpoint) (l : list fpoint) : Prop :=
  is_finite (nx c) = true /\ is_finite (ny c) = true /\
  Rabs (B2R (nx c) - sum (fun p => B2R (nx p)) l / INR (length l)) <= e /\ Rabs (B2R (ny c) - sum (fun p => B2R (ny p)) l / INR (length l)) <= e.

(** There are vertices in every direction from [c]. *)
Definition surrounded (c : fpoint) (l : list fpoint) : Prop :=
  forall ux uy, ux <> 0 \/ uy <> 0 -> exists w, In w l /\ 0 < ux * dx c w + uy * dy c w.
(** Every vertex can be cut off from the others by a line. *)
Definition convex_position (l : list fpoint) : Prop :=
  forall v, In v l -> exists ux uy, forall w, In w l -> w <> v -> ux * dx v w + uy * dy v w < 0.
(** All vertices lie to the left of every side or on it. *)
Definition convex_polygon (l : list fpoint) : Prop :=
  forall j a b v, side_at l j a b -> In v l -> 0 <= left_of a b v.

(** The Voronoi cell of [q] has a vertex at least a pixel outside the image. *)
Definition reaches_out (w h : Z) (sites : list point) (q : point) : Prop :=
  exists X Y M, voronoi_vertex sites q X Y M /\ (X <= - M \/ M * (w + 1) <= X \/ Y <= - M \/ M * (h + 1) <= Y)%Z.
