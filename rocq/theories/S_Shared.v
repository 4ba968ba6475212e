(** Specification: what a user sees of an algorithm. *)
From Coq Require Import List.
From Verif Require Import GoNum M_Norm M_Algo S_Algo M_Shared S_MemRun.
Import ListNotations.

(** The points of all members, the fitnesses, the points of Best and the statistics agree, and the
    evaluator is in the same state. *)
Definition looks_same {E} (c c' : core E) : Prop :=
  members c = members c' /\ buf c (best_slice c) = buf c' (best_slice c') /\ c_fits c = c_fits c' /\ stats_best c = stats_best c' /\ stats_gen c = stats_gen c' /\ c_ev c = c_ev c'.
(** For modifiedGenetic, so do the noted mutations. *)
Definition glooks_same {E} (g g' : mgen E) : Prop := looks_same (g_core g) (g_core g') /\ g_ben g = g_ben g'.
(** Both runs panic, or both return with the same results calculated in every generation. *)
Definition same_outcome {A} (R : A -> A -> Prop) (o o' : option (A * list results)) : Prop :=
  match o, o' with None, None => True | Some (c, rs), Some (c', rs') => R c c' /\ rs = rs' | _, _ => False end.

(** NewSimple or NewModifiedGenetic with given arrays, and Steps. *)
Definition simple_run_at {E} (ev : evaluator E) (cutoff : nat) (arrs : list (list npoint)) (refs : list nat) (e : E) (s : list act) (sw : list (nat * nat)) (l : list step_data) : option (core E * list results) :=
  match new_simple_at ev arrs refs e s sw with None => None | Some (c, r) => simple_steps_of ev cutoff l (c, [r]) end.
Definition genetic_run_at {E} (ev : evaluator E) (cutoff : nat) (arrs : list (list npoint)) (refs : list nat) (e : E) (s : list act) (sw : list (nat * nat)) (l : list step_data) : option (mgen E * list results) :=
  match new_genetic_at ev cutoff arrs refs e s sw with None => None | Some (g, r) => genetic_steps_of ev cutoff l (g, [r]) end.
