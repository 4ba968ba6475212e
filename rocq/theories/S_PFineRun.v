(** Runs with interleaved workers, as polygon_program (S_PolyProg) and genetic_run_on (S_PolyRun) but
    with no schedule: calculateFitnesses is any execution of M_PFine. *)
From Coq Require Import ZArith List Bool.
From Verif Require Import GoNum M_Norm M_Slice M_Geom S_Norm M_Algo S_Algo M_Fitness S_Fitness S_Run S_Run2 M_Voronoi S_Voronoi M_Polygons S_Polygons S_PolyRun S_PolyProg M_PFine S_PFine M_PFineRun.
Import ListNotations.
Local Open Scope nat_scope.

Section Programs.
Context (im : fimg) (srt : sorter) (hsrt : point -> list point -> option (list point)) (cutoff n l pow2 : nat).
Inductive interleaved_polygons : core ppar -> Prop :=
| ip_new groups sw c r : point_groups n l groups -> vfine_new_simple im srt hsrt groups (new_pparallel n pow2) sw c r -> sort_sorts (c_fits c) -> interleaved_polygons c
| ip_step c mu sw c' r : interleaved_polygons c -> mutator_ok mu -> vfine_simple_step im srt hsrt cutoff mu sw c c' r -> sort_sorts (c_fits c') -> interleaved_polygons c'.
(** All fitnesses positive. *)
Inductive interleaved_pgenetic : mgen ppar -> Prop :=
| ipg_new groups sw g r : point_groups n l groups -> vfine_new_genetic im srt hsrt cutoff groups (new_pparallel n pow2) sw g r -> sorted (c_fits (g_core g)) ->
    Forall (fun x => flt f0 (snd x) = true) r -> interleaved_pgenetic g
| ipg_step g mu sw g' r : interleaved_pgenetic g -> mutator_ok mu -> vfine_genetic_step im srt hsrt cutoff mu sw g g' r -> sorted (c_fits (g_core g')) ->
    Forall (fun x => flt f0 (snd x) = true) r -> interleaved_pgenetic g'.
End Programs.

(** The vertices of a Voronoi cell of pixels of a child, perhaps together with pixels of a member
    that is kept, that sorting them panics on (C69). *)
Definition child_panics (fi : fimg) (cutoff n : nat) (mu : mutator) (c : core ppar) : Prop :=
  exists i, cutoff <= i < n /\ let child := fst (mu i (nth ((i - cutoff) mod cutoff) (members c) [])) in
    cell_comparison_panics fi child \/ exists j, j < cutoff /\ cell_comparison_panics fi (nth j (members c) [] ++ child).
(** The same of a child in modifiedGenetic, or of a member that combines mutations of the children
    of one member. *)
Definition gchild_panics (fi : fimg) (cutoff n : nat) (mu : mutator) (g : mgen ppar) : Prop :=
  exists b pts, b < cutoff /\
    ((exists i, cutoff <= i < n - cutoff /\ b = i mod cutoff /\ pts = fst (mu i (nth b (members (g_core g)) []))) \/
     (exists ms, (forall m, In m ms -> exists i, cutoff <= i < n - cutoff /\ b = i mod cutoff /\ In m (snd (mu i (nth b (members (g_core g)) [])))) /\
        NoDup (map m_idx ms) /\ apply_muts ms (nth b (members (g_core g)) []) = Some pts)) /\
    (cell_comparison_panics fi pts \/ exists j, j < cutoff /\ cell_comparison_panics fi (nth j (members (g_core g)) [] ++ pts)).
