(** The part of the image the triangulation covers (C61). *)
From Coq Require Import ZArith Reals List.
From Verif Require Import GoNum M_Norm M_Slice M_Geom M_Raster M_Delaunay S_Delaunay.
Import ListNotations.
Open Scope Z_scope.

(** Twice the area of the triangles IterTriangles reports, and its share of a w x h image. *)
Definition covered2 (d : delaunay) : Z := fold_right Z.add 0 (map (fun t => Z.abs (orient (d_a t) (d_b t) (d_c t))) (iter_triangles d)).
Definition coverage_of (w h : Z) (d : delaunay) : R := (IZR (covered2 d) / IZR (2 * (w * h)))%R.
