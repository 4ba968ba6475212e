(** Two runs that differ in the scheduling only. *)
From Coq Require Import List.
From Verif Require Import GoNum M_Norm M_Geom M_Algo S_Algo M_Fitness S_Fitness S_Run2 M_Voronoi S_Voronoi M_Polygons S_Polygons S_PolyProg S_MemRun.
Import ListNotations.

(** The mutator and sort.Sort do the same in both; the schedules may differ. *)
Definition same_inputs (l l' : list step_data) : Prop := Forall2 (fun d d' => fst (fst d) = fst (fst d') /\ snd d = snd d') l l'.

(** Two runs over the polygon functions with the same groups, mutations and sorting, each with
    its own schedules. *)
Section Pair.
Context (fi : fimg) (srt : sorter) (hsrt : point -> list point -> option (list point)) (cutoff n l pow2 : nat).
Inductive polygon_pair : core ppar -> core ppar -> Prop :=
| pair_new groups s s' sw c k r r' : point_groups n l groups -> valid_schedule n s -> valid_schedule n s' -> new_simple (pparallel fi srt hsrt) groups (new_pparallel n pow2) s sw = Some (c, r) ->
    new_simple (pparallel fi srt hsrt) groups (new_pparallel n pow2) s' sw = Some (k, r') -> sort_sorts (c_fits c) -> polygon_pair c k
| pair_step c k mu s s' sw c' k' r r' : polygon_pair c k -> mutator_ok mu -> valid_schedule n s -> valid_schedule n s' -> simple_step (pparallel fi srt hsrt) cutoff mu s sw c = Some (c', r) ->
    simple_step (pparallel fi srt hsrt) cutoff mu s' sw k = Some (k', r') -> sort_sorts (c_fits c') -> polygon_pair c' k'.
End Pair.
