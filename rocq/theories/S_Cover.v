(** Specification: a polygon covers the Voronoi cell of a point. *)
From Coq Require Import ZArith List Reals.
From Verif Require Import M_Geom M_Delaunay S_Delaunay S_Voronoi.
Import ListNotations.
Open Scope Z_scope.

(** No site is nearer to the location (X/M, Y/M) than [q]. *)
Definition nearest_to (sites : list point) (q : point) (X Y M : Z) : Prop :=
  0 < M /\ forall s, In s sites -> sdist2 X Y M q <= sdist2 X Y M s.

(** All vertices of the Voronoi cell of [q] lie in the image: the cell is not cut. *)
Definition cell_inside (w h : Z) (sites : list point) (q : point) : Prop :=
  forall X Y M, voronoi_vertex sites q X Y M -> loc_in_image w h X Y M.

(** (x, y) is at most [e] in each direction away from a location in the hull of [poly]. *)
Definition near_hull (e x y : R) (poly : list point) : Prop :=
  exists x' y', in_hull x' y' poly /\ (Rabs (x - x') <= e)%R /\ (Rabs (y - y') <= e)%R.

(** The real location (x, y) belongs to the Voronoi cell of [q]. *)
Definition in_cell (sites : list point) (q : point) (x y : R) : Prop :=
  forall s, In s sites -> ((x - IZR (px q)) * (x - IZR (px q)) + (y - IZR (py q)) * (y - IZR (py q)) <= (x - IZR (px s)) * (x - IZR (px s)) + (y - IZR (py s)) * (y - IZR (py s)))%R.
