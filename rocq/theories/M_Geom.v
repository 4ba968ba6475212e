(** Model of package geom, of the two coordinate roundings, and of triangulation.Area. *)
From Coq Require Import ZArith List.
From Flocq Require Import IEEE754.BinarySingleNaN.
From Verif Require Import GoNum M_Norm.
Import ListNotations.
Open Scope Z_scope.

(** type Point (geom/point.go:9-12) and incrdelaunay.Point (int16 fields). *)
Record point := Pt { px : Z; py : Z }.

(** Point.ToNorm (geom/point.go:15-17). *)
Definition to_norm (w h : Z) (p : point) : npoint :=
  NP (fdiv (f64_of_Z (px p)) (f64_of_Z w)) (fdiv (f64_of_Z (py p)) (f64_of_Z h)).

(** Polygon.ToNorm (geom/polygon.go:10-20). *)
Definition polygon_to_norm (w h : Z) (p : list point) : list npoint := map (to_norm w h) p.

(** type Triangle (geom/triangle.go:6-8). *)
Record tri := Tri { ta : point; tb : point; tc : point }.

(** Polygon.Triangulate (geom/polygon.go:22-32): the triangles passed to the
    callback, in order: for i = 2.. : {Points[i], Points[i-1], Points[0]}. *)
Fixpoint fan_from (p0 prev : point) (l : list point) : list tri :=
  match l with
  | [] => []
  | p :: l' => Tri p prev p0 :: fan_from p0 p l'
  end.
Definition polygon_triangulate (p : list point) : list tri :=
  match p with
  | p0 :: p1 :: rest => fan_from p0 p1 rest
  | _ => []
  end.

(** fastRound (fitness/util.go:11-13); [<< 0] does nothing. *)
Definition fast_round (n : f64) : Z := go_int (fadd n fhalf).

(** createPoint (fitness/util.go:15-20). *)
Definition create_point (x y : f64) (w h : Z) : point :=
  Pt (i16 (fast_round (fmul x (f64_of_Z w)))) (i16 (fast_round (fmul y (f64_of_Z h)))).

(** The pixel coordinate Triangulate uses: math.Round(p.X * width)
    (triangulation/triangulator.go:20), later int(a.X) (line 37). *)
Definition render_coord (x : f64) (w : Z) : Z := go_int (fround (fmul x (f64_of_Z w))).
Definition render_point (p : npoint) (w h : Z) : point := Pt (render_coord (nx p) w) (render_coord (ny p) h).

(** The point Polygonate inserts (polygonation/polygonate.go:15-18). *)
Definition polygonate_point (p : npoint) (w h : Z) : point :=
  Pt (i16 (render_coord (nx p) w)) (i16 (render_coord (ny p) h)).

(** Area (triangulation/triangulator.go:46-58); the loop with [pj] = polygon[j]. *)
Fixpoint area_loop (area : f64) (pj : npoint) (l : list npoint) : f64 :=
  match l with
  | [] => area
  | pi :: l' =>
      area_loop (fadd area (fmul (fadd (nx pj) (nx pi)) (fsub (ny pj) (ny pi)))) pi l'
  end.
Definition area (polygon : list npoint) : Z :=
  match polygon with
  | [] => go_int (fround (fabs (fdiv f0 (f64_of_Z 2))))
  | p :: _ => go_int (fround (fabs (fdiv (area_loop f0 (last polygon p) polygon) (f64_of_Z 2))))
  end.
