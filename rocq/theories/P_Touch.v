(** C98: a caller may write into the points Best returned between Steps. *)
From Coq Require Import ZArith List Bool Arith Lia.
From Flocq Require Import IEEE754.BinarySingleNaN.
From Verif Require Import GoNum M_Norm S_Norm M_Slice M_Geom M_Image M_Raster M_Delaunay M_Algo S_Algo M_Fitness S_Fitness S_Run S_Run2 M_Generic S_Generic S_MemRun S_Touch L_Slice L_Algo L_Shared L_Touch P_AlgoEx P_AlgoEx2 P_Run P_Sched P_Shared P_Stuck.
Import ListNotations.
Local Open Scope nat_scope.

(** Whatever the caller writes into the points of Best before each Step, the run is the same: the
    algorithm, the fitnesses calculated and the panics. *)
Theorem C98_simple : forall E (ev : evaluator E) cutoff groups e s sw l, Forall (fun d => keeps_number (fst d)) l ->
  simple_run_edited ev cutoff groups e s sw l = simple_run_of ev cutoff groups e s sw (map snd l).
Proof.
  intros E ev cutoff groups e s sw l K. unfold simple_run_edited, simple_run_of. destruct (new_simple ev groups e s sw) as [[c r]|] eqn:N; [|reflexivity]. apply new_simple_apart in N. revert N. generalize [r]. revert c.
  induction K as [|[f [[mu s1] sw1]] l Kf K IH]; intros c rs A; [reflexivity|]. cbn [simple_steps_edited simple_steps_of map fst snd]. cbn [fst] in Kf.
  unfold write_best, best_slice. rewrite <- (step_eq ev (c_best c) cutoff mu s1 sw1 c _ (apart_ren c _ A (Kf _))). destruct (simple_step ev cutoff mu s1 sw1 c) as [[c1 r1]|] eqn:D; [|reflexivity]. apply IH. exact (step_apart _ _ _ _ _ _ _ _ A D).
Qed.
Print Assumptions C98_simple.
Theorem C98_genetic : forall E (ev : evaluator E) cutoff groups e s sw l, Forall (fun d => keeps_number (fst d)) l ->
  genetic_run_edited ev cutoff groups e s sw l = genetic_run_of ev cutoff groups e s sw (map snd l).
Proof.
  intros E ev cutoff groups e s sw l K. unfold genetic_run_edited, genetic_run_of. destruct (new_genetic ev cutoff groups e s sw) as [[g r]|] eqn:N; [|reflexivity]. apply new_genetic_apart in N. revert N. generalize [r]. revert g.
  induction K as [|[f [[mu s1] sw1]] l Kf K IH]; intros g rs A; [reflexivity|]. cbn [genetic_steps_edited genetic_steps_of map fst snd]. cbn [fst] in Kf.
  unfold write_best, best_slice. rewrite <- (gstep_eq ev (c_best (g_core g)) cutoff mu s1 sw1 g (MGen _ (g_ben g)) (conj (apart_ren (g_core g) _ A (Kf _)) eq_refl)). destruct (genetic_step ev cutoff mu s1 sw1 g) as [[g1 r1]|] eqn:D; [|reflexivity]. apply IH. exact (gstep_apart _ _ _ _ _ _ _ _ A D).
Qed.
Print Assumptions C98_genetic.

(** The caller moves all points of Best to (1, 1). *)
Definition to_corner : edit := map (fun _ => NP f1 f1).
Lemma to_corner_keeps : keeps_number to_corner.
Proof. intros pts. apply map_length. Qed.

(** That the number of points is kept is needed: if the caller could shorten the group itself, the next
    Step would panic. *)
Definition shortened : bool :=
  match simple_run_of toy 1 (ex_groups 2) tt ex_sched [] [(ex_mu, ex_sched, [(0, 1)])], simple_run_edited toy 1 (ex_groups 2) tt ex_sched [] [(tl (A := npoint), (ex_mu, ex_sched, [(0, 1)]))] with Some _, None => true | _, _ => false end.
Example C98_shortened_case : shortened = true. Proof. vm_compute. reflexivity. Qed.

(** A run whose Best is changed before each of two Steps: what the caller wrote is there before the
    Step (the first point of Best has moved to the right of all groups), and after it Best is what it
    is without the caller. *)
Definition corner_case : bool :=
  match simple_run_edited toy 1 (ex_groups 2) tt ex_sched [] [(to_corner, (ex_mu, ex_sched, [(0, 1)])); (to_corner, (ex_mu, ex_sched, [(0, 1)]))] with
  | Some (c, _) => sortedb (c_fits c) && flt (first_x (buf c (best_slice c))) f1 && feq (first_x (buf c (best_slice c))) (stats_best c) && negb (flt (first_x (buf (write_best to_corner c) (best_slice c))) f1)
  | None => false end.
Example C98_case : keeps_number to_corner /\ corner_case = true. Proof. split; [exact to_corner_keeps|vm_compute; reflexivity]. Qed.

(** * Writing into a group that newPointGroup returned *)
(** The same is false for the groups: newPointGroup may keep the slice it returned, and if the caller
    writes into it between two Steps, BestFitness is not the fitness of the points of Best after the
    next Step, even if nothing is mutated in it. *)
Definition write_group {E} (k : nat) (pts : list npoint) (c : core E) : core E := with_store c (set_nth k pts (c_store c)).
Definition no_change : mutator := fun _ pts => (pts, []).
Lemma no_change_ok : mutator_ok no_change.
Proof. intros i pts H. split; [|exact H]. cbn [no_change fst snd]. constructor; [reflexivity|constructor|intros m []|reflexivity|reflexivity]. Qed.
Definition kept (gf : option fimg) : bool :=
  match gf with None => false | Some fi =>
  match new_simple (parallel fi insertion_sort) [half_pts; half_pts] (new_parallel 2 3) ex_sched [] with None => false | Some (c0, r0) => sortedb (c_fits c0) &&
  match simple_step (parallel fi insertion_sort) 1 no_change ex_sched [] (write_group 0 (fst (to_right 0 half_pts)) c0) with None => false | Some (c1, r1) => sortedb (c_fits c1) &&
  match own_fitness (tri_alone fi insertion_sort) new_tfun (buf c1 (best_slice c1)) with None => false | Some f => flt (stats_best c1) f end end end end.
Lemma kept_ok gf : kept gf = true -> exists fi c0 r0 c1 r1 f,
  new_simple (parallel fi insertion_sort) [half_pts; half_pts] (new_parallel 2 3) ex_sched [] = Some (c0, r0) /\ sort_sorts (c_fits c0) /\
  simple_step (parallel fi insertion_sort) 1 no_change ex_sched [] (write_group 0 (fst (to_right 0 half_pts)) c0) = Some (c1, r1) /\ sort_sorts (c_fits c1) /\
  own_fitness (tri_alone fi insertion_sort) new_tfun (buf c1 (best_slice c1)) = Some f /\ flt (stats_best c1) f = true.
Proof.
  unfold kept. intros H. destruct gf as [fi|]; [|discriminate H].
  destruct (new_simple (parallel fi insertion_sort) [half_pts; half_pts] (new_parallel 2 3) ex_sched []) as [[c0 r0]|] eqn:E0; [|discriminate H]. apply andb_true_iff in H as [S0 H].
  destruct (simple_step (parallel fi insertion_sort) 1 no_change ex_sched [] (write_group 0 (fst (to_right 0 half_pts)) c0)) as [[c1 r1]|] eqn:E1; [|discriminate H]. apply andb_true_iff in H as [S1 H].
  destruct (own_fitness (tri_alone fi insertion_sort) new_tfun (buf c1 (best_slice c1))) as [f|] eqn:Ef; [|discriminate H].
  exists fi, c0, r0, c1, r1, f. split; [exact E0|]. split; [intros _; apply sortedb_ok, S0|]. split; [exact E1|]. split; [intros _; apply sortedb_ok, S1|]. split; [exact Ef|exact H].
Qed.
Lemma kept_true : kept dark_fi = true. Proof. vm_compute. reflexivity. Qed.
Theorem C98_group_refuted : exists fi pts pts' mu s c0 r0 c1 r1 f, mutator_ok mu /\ valid_schedule 2 s /\ length pts' = length pts /\
  new_simple (parallel fi insertion_sort) [pts; pts] (new_parallel 2 3) s [] = Some (c0, r0) /\ sort_sorts (c_fits c0) /\
  simple_step (parallel fi insertion_sort) 1 mu s [] (write_group 0 pts' c0) = Some (c1, r1) /\ sort_sorts (c_fits c1) /\
  own_fitness (tri_alone fi insertion_sort) new_tfun (buf c1 (best_slice c1)) = Some f /\ flt (stats_best c1) f = true.
Proof.
  destruct (kept_ok _ kept_true) as (fi & c0 & r0 & c1 & r1 & f & H). exists fi, half_pts, (fst (to_right 0 half_pts)), no_change, ex_sched, c0, r0, c1, r1, f.
  split; [exact no_change_ok|]. split; [exact ex_sched_ok|]. split; [vm_compute; reflexivity|]. exact H.
Qed.
Print Assumptions C98_group_refuted.
