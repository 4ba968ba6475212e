(** Specifications for the sizes of moves: what a mutation or a generator iteration should do to
    a coordinate, in real numbers. *)
From Coq Require Import ZArith Reals List Bool Rpower.
From Flocq Require Import Core IEEE754.BinarySingleNaN.
From Verif Require Import GoNum M_Norm.
Import ListNotations.
Open Scope R_scope.

(** The nearest number of [0,1]. *)
Definition clamp (r : R) : R := Rmax 0 (Rmin 1 r).

(** [b] is [a] moved by [delta] and put back into [0,1], up to [eps]. *)
Definition moved (eps : R) (a b : f64) (delta : R) : Prop := Rabs (B2R b - clamp (B2R a + delta)) <= eps.

(** A good math.Pow on (0,1] x [0,1]: the result is in [0,1] and within 2^-51 of x^y. *)
Definition pow_ok (pow : f64 -> f64 -> f64) : Prop := forall x y : f64,
  is_finite x = true -> is_finite y = true -> 0 < B2R x <= 1 -> 0 <= B2R y <= 1 ->
  is_finite (pow x y) = true /\ 0 <= B2R (pow x y) <= 1 /\ Rabs (B2R (pow x y) - Rpower (B2R x) (B2R y)) <= bpow radix2 (-51).

(** [after] is at least as spaced as [before]: for every pair of points of [after] there is a pair
    of points of [before] (at different places of the group) that is not further apart. *)
Definition at_least_as_spaced (before after : list npoint) : Prop := forall i j p q, i <> j ->
  nth_error after i = Some p -> nth_error after j = Some q ->
  exists i' j' p' q', i' <> j' /\ nth_error before i' = Some p' /\ nth_error before j' = Some q' /\ B2R (dist p' q') <= B2R (dist p q).
