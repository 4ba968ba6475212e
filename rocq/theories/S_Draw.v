(** What is drawn and what is scored (C72). *)
From Coq Require Import ZArith List Bool.
From Verif Require Import GoNum M_Norm M_Geom S_Delaunay M_Delaunay.
Import ListNotations.
Open Scope Z_scope.

(** The result of the third-party triangulation of [n] points: indices of points. *)
Definition index_list (n : nat) (ix : list Z) : Prop := Forall (fun i => 0 <= i < Z.of_nat n) ix.

(** The triangles [ts] have the corners the indices [ix] pick from the points [Q], three
    per triangle. *)
Definition picks (Q : list point) (ix : list Z) (ts : list tri) : Prop :=
  length ts = (length ix / 3)%nat /\
  forall i, (i < length ts)%nat -> let corner k := nth (Z.to_nat (nth (3 * i + k) ix 0)) Q (Pt 0 0) in
    nth i ts (Tri (Pt 0 0) (Pt 0 0) (Pt 0 0)) = Tri (corner 0%nat) (corner 1%nat) (corner 2%nat).

(** [ts] is a Delaunay triangulation of the points [Q]: triangles with area between
    points of [Q], none with a point of [Q] strictly inside its circumcircle, and every
    location inside a triangle between points of [Q] (that is, of the convex hull) is in
    one of them. *)
Record delaunay_of (Q : list point) (ts : list tri) : Prop := {
  do_corners : forall t, In t ts -> In (ta t) Q /\ In (tb t) Q /\ In (tc t) Q;
  do_area : forall t, In t ts -> orient (ta t) (tb t) (tc t) <> 0;
  do_empty : forall t p, In t ts -> In p Q -> ~ in_circumcircle (ta t) (tb t) (tc t) p;
  do_cover : forall X Y M a b c, 0 < M -> In a Q -> In b Q -> In c Q -> loc_inside X Y M a b c ->
    exists t, In t ts /\ loc_within X Y M (ta t) (tb t) (tc t) }.

(** The triangles a b c and d e f have the same corners. *)
Definition same_corners (a b c d e f : point) : Prop := forall p, In p [a; b; c] <-> In p [d; e; f].

(** Of the points [Q] only the corners of a b c are in or on its circumcircle. *)
Definition alone (Q : list point) (a b c : point) : Prop :=
  forall p, In p Q -> in_closed_circumcircle a b c p -> In p [a; b; c].

(** Only for the float just below 0.5 the two ways of rounding differ (C09): no coordinate
    of [p] in pixels is that float. *)
Definition rounds_alike (w h : Z) (p : npoint) : Prop :=
  fmul (nx p) (f64_of_Z w) <> f64_dy (2 ^ 53 - 1) (-54) /\ fmul (ny p) (f64_of_Z h) <> f64_dy (2 ^ 53 - 1) (-54).

(** The points [Q] and the corners of the enclosing triangle of a w x h image. *)
Definition framed (w h : Z) (Q : list point) : list point :=
  let s := new_super_triangle w h in d_a s :: d_b s :: d_c s :: Q.
