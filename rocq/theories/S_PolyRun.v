(** Whole runs of the two algorithms over any evaluator, and what a run over the polygon
    fitness functions promises. *)
From Coq Require Import ZArith List Bool Permutation.
From Flocq Require Import IEEE754.BinarySingleNaN.
From Verif Require Import GoNum M_Norm M_Slice M_Geom S_Norm M_Delaunay S_Delaunay M_Algo S_Algo M_Fitness S_Fitness M_Voronoi S_Voronoi M_Polygons S_Polygons.
Import ListNotations.

Section Runs.
Context {A : Type} (ev : evaluator A) (e0 : A) (cutoff n l : nat).
(** NewSimple on the evaluator [e0], then Steps, with no NaN among the fitnesses. *)
Inductive simple_run_on : core A -> Prop :=
| so_new groups s sw c r : length groups = n -> Forall (fun g => length g = l /\ Forall pt_in_unit g) groups -> valid_schedule n s ->
    new_simple ev groups e0 s sw = Some (c, r) -> sorted (c_fits c) ->
    Forall (fun x => is_nan (snd x) = false) r -> simple_run_on c
| so_step c mu s sw c' r : simple_run_on c -> mutator_ok mu -> valid_schedule n s ->
    simple_step ev cutoff mu s sw c = Some (c', r) -> sorted (c_fits c') -> Forall (fun x => is_nan (snd x) = false) r -> simple_run_on c'.
(** NewModifiedGenetic on the evaluator [e0], then Steps, all fitnesses positive. *)
Inductive genetic_run_on : mgen A -> Prop :=
| go_new groups s sw g r : length groups = n -> Forall (fun g => length g = l /\ Forall pt_in_unit g) groups -> valid_schedule (n - cutoff) s ->
    new_genetic ev cutoff groups e0 s sw = Some (g, r) -> sorted (c_fits (g_core g)) ->
    Forall (fun x => flt f0 (snd x) = true) r -> genetic_run_on g
| go_step g mu s sw g' r : genetic_run_on g -> mutator_ok mu -> valid_schedule (n - cutoff) s ->
    genetic_step ev cutoff mu s sw g = Some (g', r) -> sorted (c_fits (g_core g')) -> Forall (fun x => flt f0 (snd x) = true) r -> genetic_run_on g'.
End Runs.

(** The diagram of the function at position [i] has the Voronoi cells of the points [pts],
    in pixels, one for each different point, and no base is pending; [f] is the fitness of
    that diagram, without any cache. *)
Definition evaluated_cells (im : fimg) (p : ppar) (i : nat) (pts : list npoint) (f : f64) : Prop :=
  exists id t v, pat_pos p i = Some (id, t) /\ pf_tri t = Some v /\ pf_base t = None /\
    (exists Q qs cells, Permutation Q (map (mut_point im) pts) /\ cell_per_point (fi_w im) (fi_h im) Q qs cells /\ iv_iter v = filter nonempty cells) /\
    plain_pfitness im v = Some f.
