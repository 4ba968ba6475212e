(** Model of NewSpacedGenerator (generator/spaced.go:69-76); Generate itself is in M_Norm. *)
From Coq Require Import ZArith List Bool.
From Flocq Require Import IEEE754.BinarySingleNaN.
From Verif Require Import GoNum M_Norm.
Import ListNotations.
Open Scope Z_scope.

(** const startTemp = 1. and minTemp = 0.02 (generator/spaced.go:9-10); minTemp/startTemp is a
    constant expression, rounded once. *)
Definition min_over_start : f64 := fdiv (f64_of_Z 2) (f64_of_Z 100).

(** gen.decrement (generator/spaced.go:73); [pow] is math.Pow. *)
Definition spaced_decrement (pow : f64 -> f64 -> f64) (iterations : Z) : f64 := pow min_over_start (fdiv f1 (f64_of_Z iterations)).

(** NewSpacedGenerator(iterations).Generate(n): the loop runs [iterations] times, so the draws
    are those of an infinite supply up to [iterations]. *)
Definition spaced_new (pow : f64 -> f64 -> f64) (iterations n : Z) (init : nat -> f64 * f64) (d : nat -> sdraw) : option (list npoint) :=
  spaced_generate (spaced_decrement pow iterations) n init (map d (seq 0 (Z.to_nat iterations))).
