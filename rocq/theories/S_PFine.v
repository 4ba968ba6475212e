(** Executions of calculateFitnesses over the polygon functions in which the steps of the
    goroutines are interleaved. *)
From Coq Require Import ZArith List.
From Verif Require Import GoNum M_Norm M_Geom M_Algo S_Algo M_Fitness S_Fitness S_Run2 M_Voronoi S_Voronoi M_Polygons S_Polygons S_PolyRun S_PolyProg M_PFine.
Import ListNotations.

Section Spec.
Context (im : fimg) (srt : sorter) (hsrt : point -> list point -> option (list point)).
(** Nothing is left that any goroutine could do. *)
Definition vfinished (st : vstate) : Prop := forall a, ~ venabled st a.
(** One step leads from st to st'. *)
Definition vgoes_to (st' st : vstate) : Prop := exists a, venabled st a /\ vfine_step im srt hsrt st a = Some st'.
(** Every execution from st on ends: there is no infinite one. *)
Definition vmust_end (st : vstate) : Prop := Acc vgoes_to st.
End Spec.

(** The states in which calculateFitnesses starts its workers: at the start of NewSimple and,
    after any number of Steps, when the new generation has been made. *)
Section Starts.
Context (im : fimg) (srt : sorter) (hsrt : point -> list point -> option (list point)) (cutoff n l pow2 : nat).
Inductive polygon_start : core ppar -> Prop :=
| ps_new groups c : point_groups n l groups -> init_core groups (new_pparallel n pow2) = Some c -> polygon_start c
| ps_step c0 mu c : polygon_program im srt hsrt cutoff n l pow2 c0 -> mutator_ok mu -> new_generation (pparallel im srt hsrt) mu cutoff n c0 = Some c -> polygon_start c.
(** The same for NewModifiedGenetic. *)
Inductive polygon_gstart : core ppar -> Prop :=
| pgs_new groups c : point_groups n l groups -> init_core groups (new_pparallel n pow2) = Some c -> polygon_gstart c
| pgs_step g0 mu c : genetic_run_on (pparallel im srt hsrt) (new_pparallel n pow2) cutoff n l g0 -> mutator_ok mu -> new_generation (pparallel im srt hsrt) mu cutoff (n - cutoff) (g_core g0) = Some c -> polygon_gstart c.
End Starts.

(** The array of the evaluator the function at position [i] reads, if it reads one. *)
Definition preads_array (p : ppar) (i : nat) : option nat :=
  match pat_pos p i with Some (_, f) => match pf_cache f with QArr k => Some k | _ => None end | None => None end.
(** What the function at position [i] sees in its cache. *)
Definition pcache_seen (p : ppar) (i : nat) : option (list (option pentry)) :=
  match pat_pos p i with Some (_, f) => option_map fst (pcache_view (pp_arrs p) (pf_cache f)) | None => None end.
(** The array is neither replaced nor written before the function has read it. *)
Definition pundisturbed (p0 : ppar) (l1 : list act) (p : ppar) (j : nat) : Prop :=
  pcache_seen p j = pcache_seen p0 j /\ pcache_seen p j <> None /\ preads_array p j = preads_array p0 j /\ (In Prep l1 -> preads_array p j <> Some (pp_cur p)).
(** The same functions at the same positions, with the same diagrams and bases. *)
Definition same_diagrams (p q : ppar) : Prop :=
  pp_order p = pp_order q /\ map (fun f => (pf_tri f, pf_base f)) (pp_funs p) = map (fun f => (pf_tri f, pf_base f)) (pp_funs q).
