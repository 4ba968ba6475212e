(** Specifications for the Voronoi diagrams. *)
From Coq Require Import ZArith List Bool Permutation Reals.
From Flocq Require Import Core IEEE754.BinarySingleNaN.
From Verif Require Import GoNum M_Norm M_Geom M_Delaunay S_Delaunay M_Voronoi.
Import ListNotations.
Open Scope Z_scope.

(** What is assumed of sort.Slice: it rearranges the slice; it panics only if the
    comparison panics on two elements at different places; up to 6 elements it is
    insertion sort. *)
Record sorter_ok (srt : sorter) : Prop := {
  so_perm : forall less l l', srt less l = Some l' -> Permutation l l';
  so_panic : forall less l, srt less l = None ->
    exists i j x y, i <> j /\ nth_error l i = Some x /\ nth_error l j = Some y /\ less x y = None;
  so_small : forall less l, (length l <= 6)%nat -> srt less l = slice_sort less l }.

(** The vertex is a number inside the image, up to 0.000100001 in each direction. *)
Definition in_frame (w h : Z) (p : fpoint) : Prop :=
  is_finite (nx p) = true /\ is_finite (ny p) = true /\
  (- 0.000100001 <= B2R (nx p) <= IZR w + 0.000100001)%R /\ (- 0.000100001 <= B2R (ny p) <= IZR h + 0.000100001)%R.

(** No two neighbours in the list are equal. *)
Fixpoint no_repeat (l : list point) : Prop :=
  match l with
  | p :: ((q :: _) as t) => p <> q /\ no_repeat t
  | _ => True
  end.

(** The location (X/M, Y/M) is a vertex of the Voronoi cell of the site [q]: no site is
    nearer than [q], and two other sites, not on a line with [q], are as near. *)
Definition voronoi_vertex (sites : list point) (q : point) (X Y M : Z) : Prop :=
  0 < M /\ In q sites /\ (forall s, In s sites -> sdist2 X Y M q <= sdist2 X Y M s) /\
  exists a b, In a sites /\ In b sites /\ orient q a b <> 0 /\ sdist2 X Y M a = sdist2 X Y M q /\ sdist2 X Y M b = sdist2 X Y M q.

(** [c] is the location (X/M, Y/M), rounded to float64 and then to float32. *)
Definition rounded (r : R) : R :=
  round radix2 (FLT_exp (-149) 24) ZnearestE (round radix2 (FLT_exp (-1074) 53) ZnearestE r).
Definition at_rounded (c : fpoint) (X Y M : Z) : Prop :=
  is_finite (nx c) = true /\ is_finite (ny c) = true /\
  B2R (nx c) = rounded (IZR X / IZR M) /\ B2R (ny c) = rounded (IZR Y / IZR M).

(** The sites: three far away auxiliary points and the points themselves. *)
Definition far_points (w h : Z) : list point :=
  let m := Z.max w h in let x := (w + 1) / 2 in let y := (h + 1) / 2 in
  [Pt (x - 2 * m) (y - m); Pt (x + 2 * m) (y - m); Pt x (y + 2 * m)].

(** [cs] are the vertices of the Voronoi cell of [q], rounded: all of them and no others. *)
Definition describes (sites : list point) (q : point) (cs : list fpoint) : Prop :=
  (forall c, In c cs -> exists X Y M, voronoi_vertex sites q X Y M /\ at_rounded c X Y M) /\
  (forall X Y M, voronoi_vertex sites q X Y M -> exists c, In c cs /\ at_rounded c X Y M).

(** [c] lies exactly on the border of the image. *)
Definition on_border (w h : Z) (c : fpoint) : Prop :=
  is_finite (nx c) = true /\ is_finite (ny c) = true /\
  (0 <= B2R (nx c) <= IZR w)%R /\ (0 <= B2R (ny c) <= IZR h)%R /\
  (B2R (nx c) = 0%R \/ B2R (nx c) = IZR w \/ B2R (ny c) = 0%R \/ B2R (ny c) = IZR h).

(** The location (X/M, Y/M) lies in the image, borders included. *)
Definition loc_in_image (w h X Y M : Z) : Prop := 0 <= X <= M * w /\ 0 <= Y <= M * h.

(** [poly] shows the Voronoi cell of [q] in the image: each vertex is a vertex of the
    cell (rounded) or lies on the border; each vertex of the cell that lies in the image
    is there; and if all of them lie in the image, there is nothing else. *)
Record shows_cell (w h : Z) (sites : list point) (q : point) (poly : list fpoint) : Prop := {
  sc_in : forall c, In c poly -> (exists X Y M, voronoi_vertex sites q X Y M /\ at_rounded c X Y M) \/ on_border w h c;
  sc_all : forall X Y M, voronoi_vertex sites q X Y M -> loc_in_image w h X Y M -> exists c, In c poly /\ at_rounded c X Y M;
  sc_only : (forall X Y M, voronoi_vertex sites q X Y M -> loc_in_image w h X Y M) ->
    forall c, In c poly -> exists X Y M, voronoi_vertex sites q X Y M /\ at_rounded c X Y M }.

(** [cells] has one cell for each different point in [Q]. *)
Definition cell_per_point (w h : Z) (Q : list point) (qs : list point) (cells : list (list fpoint)) : Prop :=
  NoDup qs /\ (forall q, In q qs <-> In q Q) /\ Forall2 (shows_cell w h (far_points w h ++ Q)) qs cells.

(** The location (x, y) lies in the convex hull of the polygon. *)
Definition weighted (f : point -> Z) (ws : list R) (poly : list point) : R :=
  fold_right (fun wp s => (fst wp * IZR (f (snd wp)) + s)%R) 0%R (combine ws poly).
Definition in_hull (x y : R) (poly : list point) : Prop :=
  exists ws, length ws = length poly /\ Forall (fun a => (0 <= a)%R) ws /\ fold_right Rplus 0%R ws = 1%R /\
    weighted px ws poly = x /\ weighted py ws poly = y.
