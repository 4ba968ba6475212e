(** C97: parameters with which the algorithms never try anything new. *)
From Coq Require Import ZArith List Bool Arith Lia.
From Flocq Require Import IEEE754.BinarySingleNaN.
From Verif Require Import GoNum M_Norm M_Slice M_Algo S_Norm S_Algo S_MemRun L_Slice L_Algo L_Algo2 L_Stuck P_AlgoEx.
Import ListNotations.
Local Open Scope nat_scope.

(** If cutoff is not below the population size, every member of every generation of simple, and
    Best, has the points of one of the groups newPointGroup returned, for every evaluator, mutation
    method and order of events. *)
Theorem C97_simple : forall E (ev : evaluator E) cutoff groups e s sw l c rs, length groups <= cutoff ->
  simple_run_of ev cutoff groups e s sw l = Some (c, rs) ->
  Forall (fun m => In m groups) (members c) /\ In (buf c (best_slice c)) groups.
Proof.
  intros E ev cutoff groups e s sw l c rs L H. apply (old_members groups (length groups)). revert H. unfold simple_run_of, new_simple. destruct (init_core groups e) as [c1|] eqn:I; [|discriminate]. apply (init_old _ (length groups)) in I; [|reflexivity].
  unfold simple_calc. destruct (_ =? 0); [discriminate|]. destruct (do_acts ev s (c1, [])) as [[c2 r2]|] eqn:D; [|discriminate]. apply (acts_old ev groups (length groups)) in D; [|exact I].
  destruct (update_fitnesses ev sw c2) as [c3|] eqn:U; [|discriminate]. apply (update_old ev groups (length groups)) in U; [|exact D]. exact (simple_steps_old ev groups (length groups) cutoff l L _ _ _ _ U).
Qed.
Print Assumptions C97_simple.

(** For modifiedGenetic this is so already if the population size is at most twice the cutoff. *)
Theorem C97_genetic : forall E (ev : evaluator E) cutoff groups e s sw l g rs, length groups <= 2 * cutoff -> schedules_ok (length groups - cutoff) s l ->
  genetic_run_of ev cutoff groups e s sw l = Some (g, rs) ->
  Forall (fun m => In m groups) (members (g_core g)) /\ In (buf (g_core g) (best_slice (g_core g))) groups.
Proof.
  intros E ev cutoff groups e s sw l g rs L (V & Vs) H. apply (old_members groups (length groups)). revert H. unfold genetic_run_of, new_genetic. destruct (init_core groups e) as [c1|] eqn:I; [|discriminate]. apply (init_old _ (length groups)) in I; [|reflexivity].
  unfold g_calc. destruct (_ <=? cutoff); [discriminate|]. destruct (g_acts ev cutoff s _) as [[g2 r2]|] eqn:D; [|discriminate]. apply (gacts_old ev groups (length groups)) in D; [|exact (recv_small _ _ _ L V)|split; [exact I|apply Forall_forall; intros b Hb; exact (repeat_spec _ _ _ Hb)]]. destruct D as (D & B).
  destruct (update_fitnesses ev sw (g_core g2)) as [c3|] eqn:U; [|discriminate]. apply (update_old ev groups (length groups)) in U; [|exact D]. intros H. exact (proj1 (genetic_steps_old ev groups (length groups) cutoff l L Vs (MGen c3 (g_ben g2)) [r2] g rs (conj U B) H)).
Qed.
Print Assumptions C97_genetic.

(** With one member more, both bounds fail: Best has new points after one Step. *)
Definition first_x (pts : list npoint) : f64 := match pts with p :: _ => nx p | [] => f0 end.
Lemma not_old pts groups : forallb (fun g => flt (first_x g) (first_x pts)) groups = true -> ~ In pts groups.
Proof. intros H I. rewrite forallb_forall in H. specialize (H _ I). rewrite flt_self in H. discriminate H. Qed.
Definition fresh_simple : bool :=
  match simple_run_of toy 1 (ex_groups 2) tt ex_sched [] [(ex_mu, ex_sched, [(0, 1)])] with None => false | Some (c, _) => sortedb (c_fits c) && forallb (fun g => flt (first_x g) (first_x (buf c (best_slice c)))) (ex_groups 2) end.
Definition fresh_genetic : bool :=
  match genetic_run_of toy 1 (ex_groups 3) tt ex_sched [] [(ex_mu, ex_sched, [(0, 2)])] with None => false | Some (g, _) => sortedb (c_fits (g_core g)) && forallb (fun x => flt (first_x x) (first_x (buf (g_core g) (best_slice (g_core g))))) (ex_groups 3) end.
Lemma fresh_simple_true : fresh_simple = true. Proof. vm_compute. reflexivity. Qed.
Lemma fresh_genetic_true : fresh_genetic = true. Proof. vm_compute. reflexivity. Qed.
Theorem C97_simple_sharp : exists groups mu s sw c rs, length groups = 1 + 1 /\ mutator_ok mu /\ schedules_ok 2 s [(mu, s, sw)] /\
  simple_run_of toy 1 groups tt s [] [(mu, s, sw)] = Some (c, rs) /\ sorted (c_fits c) /\ ~ In (buf c (best_slice c)) groups.
Proof.
  pose proof fresh_simple_true as H. unfold fresh_simple in H. destruct (simple_run_of toy 1 (ex_groups 2) tt ex_sched [] [(ex_mu, ex_sched, [(0, 1)])]) as [[c rs]|] eqn:R; [|discriminate H]. apply andb_true_iff in H as [S1 H].
  exists (ex_groups 2), ex_mu, ex_sched, [(0, 1)], c, rs. split; [reflexivity|]. split; [exact ex_mu_ok|]. split; [split; [exact ex_sched_ok|constructor; [exact ex_sched_ok|constructor]]|]. split; [exact R|]. split; [apply sortedb_ok, S1|exact (not_old _ _ H)].
Qed.
Print Assumptions C97_simple_sharp.
Theorem C97_genetic_sharp : exists groups mu s sw g rs, length groups = 2 * 1 + 1 /\ mutator_ok mu /\ schedules_ok (3 - 1) s [(mu, s, sw)] /\
  genetic_run_of toy 1 groups tt s [] [(mu, s, sw)] = Some (g, rs) /\ sorted (c_fits (g_core g)) /\ ~ In (buf (g_core g) (best_slice (g_core g))) groups.
Proof.
  pose proof fresh_genetic_true as H. unfold fresh_genetic in H. destruct (genetic_run_of toy 1 (ex_groups 3) tt ex_sched [] [(ex_mu, ex_sched, [(0, 2)])]) as [[g rs]|] eqn:R; [|discriminate H]. apply andb_true_iff in H as [S1 H].
  exists (ex_groups 3), ex_mu, ex_sched, [(0, 2)], g, rs. split; [reflexivity|]. split; [exact ex_mu_ok|]. split; [split; [exact ex_sched_ok|constructor; [exact ex_sched_ok|constructor]]|]. split; [exact R|]. split; [apply sortedb_ok, S1|exact (not_old _ _ H)].
Qed.
Print Assumptions C97_genetic_sharp.

(** Four members and cutoff 2, two members and cutoff 2: two Steps return (their generation counters
    are 2), with nothing changed. *)
Definition stuck_case : bool :=
  match simple_run_of toy 2 (ex_groups 2) tt ex_sched [] [(ex_mu, ex_sched, []); (ex_mu, ex_sched, [])], genetic_run_of toy 2 (ex_groups 4) tt ex_sched [] [(ex_mu, ex_sched, []); (ex_mu, ex_sched, [])] with
  | Some (c, _), Some (g, _) => sortedb (c_fits c) && sortedb (c_fits (g_core g)) && (stats_gen c =? 2)%Z && (stats_gen (g_core g) =? 2)%Z | _, _ => false end.
Example C97_case : stuck_case = true. Proof. vm_compute. reflexivity. Qed.
