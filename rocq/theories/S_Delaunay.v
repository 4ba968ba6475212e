(** Specifications for package incrdelaunay. *)
From Coq Require Import ZArith List Bool Permutation.
From Verif Require Import M_Geom.
Import ListNotations.
Open Scope Z_scope.

Definition point_eq_dec (p q : point) : {p = q} + {p <> q}.
Proof. decide equality; apply Z.eq_dec. Defined.

(** * Multisets of points as lists *)

(** How often [p] occurs. *)
Definition mult (l : list point) (p : point) : Z := Z.of_nat (count_occ point_eq_dec l p).

(** Remove one occurrence. *)
Fixpoint take_out (p : point) (l : list point) : option (list point) :=
  match l with
  | [] => None
  | q :: t => if point_eq_dec q p then Some t else option_map (cons q) (take_out p t)
  end.

Inductive mop := MAdd (p : point) | MRemove (p : point).
Definition mop_point (o : mop) : point := match o with MAdd p | MRemove p => p end.

(** What an operation on a multiset does and returns: the new multiplicity. *)
Definition mstep (l : list point) (o : mop) : option (list point * Z) :=
  match o with
  | MAdd p => Some (p :: l, mult (p :: l) p)
  | MRemove p => option_map (fun l' => (l', mult l' p)) (take_out p l)
  end.

(** Run operations, collecting the results. *)
Fixpoint run {S} (step : S -> mop -> option (S * Z)) (s : S) (ops : list mop) : option (S * list Z) :=
  match ops with
  | [] => Some (s, [])
  | o :: t => match step s o with
              | None => None
              | Some (s', r) => option_map (fun '(s'', rs) => (s'', r :: rs)) (run step s' t)
              end
  end.

(** * Plane geometry on integer points *)

(** Twice the signed area of the triangle a b c, positive if counter-clockwise. *)
Definition orient (a b c : point) : Z := (px b - px a) * (py c - py a) - (py b - py a) * (px c - px a).

(** [p] is in the interior of the triangle a b c (of either orientation). *)
Definition strictly_inside (a b c p : point) : Prop :=
  (0 < orient a b p /\ 0 < orient b c p /\ 0 < orient c a p) \/
  (orient a b p < 0 /\ orient b c p < 0 /\ orient c a p < 0).

(** [p] is a point of the image, borders included. *)
Definition in_image (w h : Z) (p : point) : Prop := 0 <= px p <= w /\ 0 <= py p <= h.

(** Sizes for which all 16-bit arithmetic of the package is exact. *)
Definition good_size (w h : Z) : Prop := 1 <= w <= 8191 /\ 1 <= h <= 8191 /\ ~ (w = 1 /\ h = 1).

(** Squared distance, scaled by M^2, of [v] from the location (X/M, Y/M). *)
Definition sdist2 (X Y M : Z) (v : point) : Z := (X - M * px v) * (X - M * px v) + (Y - M * py v) * (Y - M * py v).

(** [p] is strictly inside (inside or on) the circle through a, b, c: there is a
    centre (X/M, Y/M) at the same distance from a, b and c and p is nearer (not
    farther).  For corners with integer coordinates the centre is rational. *)
Definition in_circumcircle (a b c p : point) : Prop :=
  exists X Y M, 0 < M /\ sdist2 X Y M b = sdist2 X Y M a /\ sdist2 X Y M c = sdist2 X Y M a /\ sdist2 X Y M p < sdist2 X Y M a.
Definition in_closed_circumcircle (a b c p : point) : Prop :=
  exists X Y M, 0 < M /\ sdist2 X Y M b = sdist2 X Y M a /\ sdist2 X Y M c = sdist2 X Y M a /\ sdist2 X Y M p <= sdist2 X Y M a.

(** The location (X/M, Y/M), M > 0, relative to the directed line a b: twice the
    area, scaled by M. *)
Definition orient_at (X Y M : Z) (a b : point) : Z := (px b - px a) * (Y - M * py a) - (py b - py a) * (X - M * px a).

(** The location is in the interior of (in or on) the triangle, of either orientation. *)
Definition loc_inside (X Y M : Z) (a b c : point) : Prop :=
  (0 < orient_at X Y M a b /\ 0 < orient_at X Y M b c /\ 0 < orient_at X Y M c a) \/
  (orient_at X Y M a b < 0 /\ orient_at X Y M b c < 0 /\ orient_at X Y M c a < 0).
Definition loc_within (X Y M : Z) (a b c : point) : Prop :=
  (0 <= orient_at X Y M a b /\ 0 <= orient_at X Y M b c /\ 0 <= orient_at X Y M c a) \/
  (orient_at X Y M a b <= 0 /\ orient_at X Y M b c <= 0 /\ orient_at X Y M c a <= 0).

(** Squared distance of two points. *)
Definition sqdist (p q : point) : Z := (px p - px q) * (px p - px q) + (py p - py q) * (py p - py q).
(** [r] is in [l] and no element of [l] is nearer to [p]. *)
Definition nearest (p : point) (l : list point) (r : point) : Prop := In r l /\ forall q, In q l -> sqdist p r <= sqdist p q.
