(** Runs with interleaved workers, as simple_program (S_Run2) and genetic_run (S_Run) but with no
    schedule: calculateFitnesses is any execution of M_Fine. *)
From Coq Require Import ZArith List Bool.
From Verif Require Import GoNum M_Norm M_Slice M_Geom S_Norm M_Algo S_Algo M_Fitness S_Fitness S_Run S_Run2 M_Fine S_Fine M_FineRun.
Import ListNotations.
Local Open Scope nat_scope.

Section Programs.
Context (im : fimg) (srt : point -> list point -> option (list point)) (cutoff n l pow2 : nat).
Inductive interleaved_simple : core par -> Prop :=
| is_new groups sw c r : point_groups n l groups -> fine_new_simple im srt groups (new_parallel n pow2) sw c r -> sort_sorts (c_fits c) -> interleaved_simple c
| is_step c mu sw c' r : interleaved_simple c -> mutator_ok mu -> fine_simple_step im srt cutoff mu sw c c' r -> sort_sorts (c_fits c') -> interleaved_simple c'.
(** All fitnesses positive. *)
Inductive interleaved_genetic : mgen par -> Prop :=
| ig_new groups sw g r : point_groups n l groups -> fine_new_genetic im srt cutoff groups (new_parallel n pow2) sw g r -> sorted (c_fits (g_core g)) ->
    Forall (fun x => flt f0 (snd x) = true) r -> interleaved_genetic g
| ig_step g mu sw g' r : interleaved_genetic g -> mutator_ok mu -> fine_genetic_step im srt cutoff mu sw g g' r -> sorted (c_fits (g_core g')) ->
    Forall (fun x => flt f0 (snd x) = true) r -> interleaved_genetic g'.
End Programs.
