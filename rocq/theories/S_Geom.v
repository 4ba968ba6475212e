(** Specifications: shoelace area of an integer polygon. *)
From Coq Require Import ZArith List.
From Verif Require Import M_Geom.
Import ListNotations.
Open Scope Z_scope.

Definition cross (a b : point) : Z := px a * py b - px b * py a.

(** Twice the signed area of the triangle a b c. *)
Definition area2 (a b c : point) : Z := (px b - px a) * (py c - py a) - (px c - px a) * (py b - py a).

(** Sum of [f] over consecutive elements of an open path. *)
Fixpoint path_sum (f : point -> point -> Z) (l : list point) : Z :=
  match l with
  | a :: t => match t with b :: _ => f a b | [] => 0 end + path_sum f t
  | [] => 0
  end.

(** Twice the signed (shoelace) area of a closed polygon. *)
Definition shoelace2 (l : list point) : Z :=
  match l with
  | [] => 0
  | p :: _ => path_sum cross l + cross (last l p) p
  end.

Fixpoint sumZ (l : list Z) : Z := match l with [] => 0 | x :: t => x + sumZ t end.
