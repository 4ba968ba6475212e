(** The standard normal density and the strips of the ziggurat method. *)
From Coq Require Import ZArith Reals List.
From Flocq Require Import Core IEEE754.BinarySingleNaN.
From Verif Require Import GoNum M_Random.
Local Open Scope R_scope.

(** The density of the normal distribution, without its constant factor. *)
Definition density (x : R) : R := Rtrigo_def.exp (- (x * x) / 2).
(** Strip i: its right edge and its lower level; the level of strip i - 1 is its upper one. *)
Definition edge (i : nat) : R := IZR (2 ^ 31) * B2R (nth i wn (B754_zero false)).
Definition level (i : nat) : R := B2R (nth i fn (B754_zero false)).
(** The height of a point in strip i, u of the way up. *)
Definition height (i : nat) (u : R) : R := level i + u * (level (i - 1) - level i).
