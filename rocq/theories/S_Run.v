(** Whole runs of the program: an algorithm driving the parallel evaluator over the
    triangle fitness functions of one image. *)
From Coq Require Import ZArith List Bool.
From Flocq Require Import IEEE754.BinarySingleNaN.
From Verif Require Import GoNum M_Norm M_Slice M_Geom S_Norm M_Delaunay S_Delaunay M_Algo S_Algo M_Fitness S_Fitness.
Import ListNotations.

Section Runs.
Context (im : fimg) (srt : point -> list point -> option (list point)) (cutoff n l pow2 : nat).
(** NewSimple on a new evaluator, then Steps, whatever the order sort.Sort leaves. *)
Inductive simple_steps : core par -> Prop :=
| ss_new groups s sw c r : length groups = n -> valid_schedule n s -> new_simple (parallel im srt) groups (new_parallel n pow2) s sw = Some (c, r) -> simple_steps c
| ss_step c mu s sw c' r : simple_steps c -> valid_schedule n s -> simple_step (parallel im srt) cutoff mu s sw c = Some (c', r) -> simple_steps c'.
(** NewSimple on a new evaluator, then Steps, with no NaN among the fitnesses. *)
Inductive simple_run : core par -> Prop :=
| sr_new groups s sw c r : length groups = n -> Forall (fun g => length g = l /\ Forall pt_in_unit g) groups -> valid_schedule n s ->
    new_simple (parallel im srt) groups (new_parallel n pow2) s sw = Some (c, r) -> sorted (c_fits c) ->
    Forall (fun x => is_nan (snd x) = false) r -> simple_run c
| sr_step c mu s sw c' r : simple_run c -> mutator_ok mu -> valid_schedule n s ->
    simple_step (parallel im srt) cutoff mu s sw c = Some (c', r) -> sorted (c_fits c') -> Forall (fun x => is_nan (snd x) = false) r -> simple_run c'.
(** NewModifiedGenetic on a new evaluator, then Steps, all fitnesses positive. *)
Inductive genetic_run : mgen par -> Prop :=
| gr_new groups s sw g r : length groups = n -> Forall (fun g => length g = l /\ Forall pt_in_unit g) groups -> valid_schedule (n - cutoff) s ->
    new_genetic (parallel im srt) cutoff groups (new_parallel n pow2) s sw = Some (g, r) -> sorted (c_fits (g_core g)) ->
    Forall (fun x => flt f0 (snd x) = true) r -> genetic_run g
| gr_step g mu s sw g' r : genetic_run g -> mutator_ok mu -> valid_schedule (n - cutoff) s ->
    genetic_step (parallel im srt) cutoff mu s sw g = Some (g', r) -> sorted (c_fits (g_core g')) -> Forall (fun x => flt f0 (snd x) = true) r -> genetic_run g'.
End Runs.

(** The triangulation of the function at position [i] is one of the points [pts] and no
    base is pending; [f] is the fitness of that triangulation, without any cache. *)
Definition evaluated_own (im : fimg) (p : par) (i : nat) (pts : list npoint) (f : f64) : Prop :=
  exists id t d, at_pos p i = Some (id, t) /\ tf_tri t = Some d /\ tf_base t = None /\ tri_of im pts d /\
    (forall q, in_image (fi_w im) (fi_h im) q -> copies_of (d_pmap d) q = Some (mult (map (mut_point im) pts) q)) /\
    plain_fitness im d = Some f.

(** The array of the evaluator the function at position [i] reads, if it reads one. *)
Definition reads_array (p : par) (i : nat) : option nat :=
  match at_pos p i with Some (_, f) => match tf_cache f with CArr k => Some k | _ => None end | None => None end.
(** What the function at position [i] sees in its cache. *)
Definition cache_seen (p : par) (i : nat) : option (list (option entry)) :=
  match at_pos p i with Some (_, f) => option_map fst (cache_view (p_arrs p) (tf_cache f)) | None => None end.
(** The states in which calculateFitnesses starts its workers. *)
Section Starts.
Context (im : fimg) (srt : point -> list point -> option (list point)) (cutoff n l pow2 : nat).
Inductive simple_start : core par -> Prop :=
| st_new groups c : length groups = n -> init_core groups (new_parallel n pow2) = Some c -> simple_start c
| st_step c0 mu c : simple_steps im srt cutoff n pow2 c0 -> new_generation (parallel im srt) mu cutoff n c0 = Some c -> simple_start c.
Inductive genetic_start : core par -> Prop :=
| gst_new groups c : length groups = n -> init_core groups (new_parallel n pow2) = Some c -> genetic_start c
| gst_step g0 mu c : genetic_run im srt cutoff n l pow2 g0 -> new_generation (parallel im srt) mu cutoff (n - cutoff) (g_core g0) = Some c -> genetic_start c.
End Starts.
(** No calculation that has not delivered its result is affected: the cache it sees is the
    one it saw when the workers started, and once the arrays are switched, the array
    Update writes (p_cur) is not one it reads.  [l1] are the events so far. *)
Definition undisturbed (p0 : par) (l1 : list act) (p : par) (j : nat) : Prop :=
  cache_seen p j = cache_seen p0 j /\ cache_seen p j <> None /\ reads_array p j = reads_array p0 j /\ (In Prep l1 -> reads_array p j <> Some (p_cur p)).
