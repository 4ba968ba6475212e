(** C36: the cache arrays are not written while a worker may read them. *)
From Coq Require Import ZArith List Bool Arith Lia Permutation.
From Flocq Require Import IEEE754.BinarySingleNaN.
From Verif Require Import GoNum M_Norm M_Slice M_Geom M_Image M_Raster S_Norm M_Delaunay S_Delaunay M_Algo S_Algo M_Fitness S_Fitness S_Run
  L_Reach L_Hist L_Algo L_Algo2 L_Algo4 L_Algo5 L_Fit L_Fit3 L_Sim L_Hold L_Tri L_Race P_Algo P_AlgoEx P_Fitness P_Run.
Import ListNotations.
Open Scope Z_scope.

Lemma start_ready im srt cutoff n pow2 c : simple_start im srt cutoff n pow2 c -> ready n n (c_ev c).
Proof.
  intros [groups c1 L E|c0 mu c1 R E].
  - rewrite (init_ev _ _ _ E). destruct (new_parallel_wf n pow2) as [W T]. split; [exact W|]. intros i Hi. left. apply T, Hi.
  - destruct (steps_ready _ _ _ _ _ _ R) as [W T]. destruct (generation_same im srt n _ _ _ _ _ E) as [G _]. destruct (G W) as (W1 & C1 & _ & _ & T1).
    split; [exact W1|]. intros i Hi. rewrite C1, T1 by exact Hi. apply T, Hi.
Qed.
Lemma seen_some n lim p j : (lim <= n)%nat -> ready n lim p -> (j < lim)%nat -> cache_seen p j <> None.
Proof.
  intros Hl [W T] Hj. unfold cache_seen. destruct (pw_at _ _ W j ltac:(lia)) as (id & f & A). specialize (T j Hj). unfold tag in T. rewrite A in *. cbn [option_map snd] in T.
  destruct T as [T|T]; injection T as T; rewrite T; cbn [cache_view option_map]; [discriminate|]. pose proof (pw_cur _ _ W) as C. pose proof (pw_arrs _ _ W) as L.
  destruct (nth_error (p_arrs p) (p_cur p)) eqn:E; [discriminate|]. apply nth_error_None in E. lia.
Qed.
Lemma ready_undisturbed im srt n lim c l1 l2 c2 r j : (lim <= n)%nat -> ready n lim (c_ev c) -> valid_schedule lim (l1 ++ l2) -> do_acts (parallel im srt) l1 (c, []) = Some (c2, r) ->
  (j < lim)%nat -> ~ In (Calc j) l1 -> undisturbed (c_ev c) l1 (c_ev c2) j.
Proof.
  intros Hl R Hv H Hj N. destruct (rinv_seen n lim (c_ev c) l1 (c_ev c2) j Hl R) as (A & B & C); [eapply race_prefix; eauto|exact Hj|exact N|].
  unfold undisturbed. rewrite A. split; [reflexivity|]. split; [apply (seen_some n lim); assumption|]. auto.
Qed.
Theorem C36_simple im srt cutoff n pow2 c l1 l2 c2 r j : simple_start im srt cutoff n pow2 c -> valid_schedule n (l1 ++ l2) ->
  do_acts (parallel im srt) l1 (c, []) = Some (c2, r) -> (j < n)%nat -> ~ In (Calc j) l1 -> undisturbed (c_ev c) l1 (c_ev c2) j.
Proof. intros S Hv H Hj N. apply (ready_undisturbed im srt n n c l1 l2 c2 r); try assumption; [lia|apply (start_ready _ _ _ _ _ _ S)]. Qed.
Print Assumptions C36_simple.

Section Genetic.
Context (im : fimg) (srt : point -> list point -> option (list point)) (cutoff n l pow2 : nat).
Hypothesis Hsize : good_size (fi_w im) (fi_h im).
Hypothesis Hsort : forall p q q', srt p q = Some q' -> Permutation q q'.
Hypothesis Hl : Z.of_nat l <= 65535.
Hypothesis Hcut : cutoff <> 0%nat.
Hypothesis H2c : (2 * cutoff <= n)%nat.
Lemma run_ready g : genetic_run im srt cutoff n l pow2 g -> ready n (n - cutoff) (c_ev (g_core g)).
Proof.
  intros R. pose proof (genetic_run_inv im srt cutoff n l pow2 Hsize Hsort Hl Hcut H2c g R) as [_ Hh (_ & Hcnt & _) So].
  assert (G : gready n (g_core g)); [|apply gready_ready; [exact G|exact So|exact Hcnt]]. clear Hh Hcnt So.
  induction R as [groups s sw g r L Gf Hv E So Po|g mu s sw g' r R IH Hmu Hv E So Po].
  - eapply (new_genetic_gready im srt n cutoff groups pow2 s sw g r); [lia|exact L|exact Hv|exact E].
  - pose proof (genetic_run_inv im srt cutoff n l pow2 Hsize Hsort Hl Hcut H2c g R) as [_ Hh (_ & Hcnt & _) So0].
    destruct (genetic_history_shape (bare_ev im srt) cutoff n l _ Hcut Hh) as (Sh & _).
    apply (genetic_step_gready im srt n cutoff mu s sw g g' r); [lia|exact (sh_pop _ _ _ Sh)|exact Hv|exact (sh_fits _ _ _ Sh)| |exact E]. apply gready_ready; [exact IH|exact So0|exact Hcnt].
Qed.
End Genetic.
Theorem C36_genetic im srt cutoff n l pow2 c l1 l2 c2 r j : good_size (fi_w im) (fi_h im) -> (forall p q q', srt p q = Some q' -> Permutation q q') -> Z.of_nat l <= 65535 ->
  cutoff <> 0%nat -> (2 * cutoff <= n)%nat -> genetic_start im srt cutoff n l pow2 c -> valid_schedule (n - cutoff) (l1 ++ l2) ->
  do_acts (parallel im srt) l1 (c, []) = Some (c2, r) -> (j < n - cutoff)%nat -> ~ In (Calc j) l1 -> undisturbed (c_ev c) l1 (c_ev c2) j.
Proof.
  intros Hs So Hl Hc H2 St Hv H Hj N. apply (ready_undisturbed im srt n (n - cutoff) c l1 l2 c2 r); try assumption; [lia|]. destruct St as [groups c1 L E|g0 mu c1 R E].
  - rewrite (init_ev _ _ _ E). destruct (new_parallel_wf n pow2) as [W T]. split; [exact W|]. intros i Hi. left. apply T. lia.
  - destruct (run_ready im srt cutoff n l pow2 Hs So Hl Hc H2 g0 R) as [W T]. destruct (generation_same im srt n _ _ _ _ _ E) as [G _]. destruct (G W) as (W1 & C1 & _ & _ & T1).
    split; [exact W1|]. intros i Hi. rewrite C1, T1 by lia. apply T, Hi.
Qed.
Print Assumptions C36_genetic.

(** The arrays do change: in the second generation of the run of C28_simple_case function 0
    reads array 1 while the result of function 1 is written into array 0. *)
Definition ex_race (gf : option fimg) : option (bool * option nat * nat * list nat * list nat) :=
  match gf with None => None | Some fi =>
  match new_simple (parallel fi insertion_sort) (repeat pts0 2) (new_parallel 2 3) ex_sched [] with None => None | Some (c0, r0) =>
  match new_generation (parallel fi insertion_sort) nudge 1 2 c0 with None => None | Some c1 =>
  match do_acts (parallel fi insertion_sort) [Calc 1; Prep; Recv 1] (c1, []) with None => None | Some (c2, r2) =>
  let used p := map (fun a => length (filter (fun x : option entry => match x with None => false | _ => true end) a)) (p_arrs p) in
  Some (true, reads_array (c_ev c2) 0, p_cur (c_ev c2), used (c_ev c1), used (c_ev c2)) end end end end.
Example C36_case : ex_race grad_fi = Some (true, Some 1%nat, 0%nat, [0; 1]%nat, [2; 1]%nat).
Proof. vm_compute. reflexivity. Qed.

(** modifiedGenetic, a mutation leaving no triangle: member 2 stays unevaluated in the
    first Step and is sorted before member 1, equal fitness 0.  In the second Step worker 1
    then reads array 1 while the result of function 0 is written into it. *)
Definition flatten_mu : mutator := fun i pts => random_mutate f1 (f64_of_Z 2) (fun k => RD (if (k =? 2)%nat then fhalf else f1) f0 f0) pts.
Definition tri3 : list npoint := [q8 0 0; q8 8 0; q8 0 8].
Definition flat3 : list npoint := [q8 0 0; q8 8 0; q8 0 0].
Definition race_run (gf : option fimg) : option (bool * bool * bool * option nat * nat * bool) :=
  match gf with None => None | Some fi =>
  let ev := parallel fi insertion_sort in
  match new_genetic ev 1 [tri3; flat3; flat3] (new_parallel 3 3) ex_sched [(1, 2)%nat] with None => None | Some (g0, r0) =>
  match genetic_step ev 1 flatten_mu ex_sched [(1, 2)%nat] g0 with None => None | Some (g1, r1) =>
  match new_generation ev flatten_mu 1 2 (g_core g1) with None => None | Some c1 =>
  match do_acts ev [Calc 0; Prep; Recv 0] (c1, []) with None => None | Some (c2, r2) =>
  let used o := match o with None => 0%nat | Some a => length (filter (fun x : option entry => match x with None => false | _ => true end) a) end in
  Some (sortedb (c_fits (g_core g0)) && sortedb (c_fits (g_core g1)), no_nans (r0 ++ r1), flt f0 (stats_best (g_core g1)), reads_array (c_ev c2) 1, p_cur (c_ev c2),
    (used (cache_seen (c_ev c1) 1) =? used (cache_seen (c_ev c2) 1))%nat) end end end end end.
Theorem C36_genetic_zero_refuted : race_run grad_fi = Some (true, true, true, Some 1%nat, 1%nat, false).
Proof. vm_compute. reflexivity. Qed.
Print Assumptions C36_genetic_zero_refuted.
