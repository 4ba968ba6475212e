(** C96: newPointGroup must return different groups. *)
From Coq Require Import ZArith List Bool Arith Lia.
From Flocq Require Import IEEE754.BinarySingleNaN.
From Verif Require Import GoNum M_Norm S_Norm M_Slice M_Geom M_Image M_Raster M_Delaunay M_Algo S_Algo M_Fitness S_Fitness S_Run S_Run2 M_Generic S_Generic M_Shared S_MemRun S_Shared L_Slice L_Algo L_Shared P_AlgoEx P_AlgoEx2 P_Run P_Sched.
Import ListNotations.
Local Open Scope nat_scope.

Section Runs.
Context {E : Type} (ev : evaluator E) (cutoff : nat) (rho : nat -> nat) (K : nat).
Hypothesis inj : forall a b, a < K -> b < K -> rho a = rho b -> a = b.
Lemma ren_looks (c c' : core E) : ren rho K c c' -> looks_same c c'.
Proof.
  intros R. split; [|split; [|split; [|split; [|split]]]].
  - unfold members. rewrite (rn_pop _ _ _ _ R), map_map. apply map_ext_in. intros a Ha. pose proof (rn_ip _ _ _ _ R) as F. rewrite Forall_forall in F. symmetry. exact (proj2 (proj2 (rn_st _ _ _ _ R) a (F a Ha))).
  - unfold best_slice. rewrite (rn_best _ _ _ _ R). symmetry. exact (buf_ren rho K c c' _ R (rn_ib _ _ _ _ R)).
  - symmetry. exact (rn_fits _ _ _ _ R).
  - symmetry. exact (rn_bf _ _ _ _ R).
  - symmetry. exact (rn_gen _ _ _ _ R).
  - symmetry. exact (rn_ev _ _ _ _ R).
Qed.
Lemma steps_ren l : forall c c' rs, ren rho K c c' -> same_outcome looks_same (simple_steps_of ev cutoff l (c, rs)) (simple_steps_of ev cutoff l (c', rs)).
Proof.
  induction l as [|[[mu s] sw] l IH]; intros c c' rs R; cbn [simple_steps_of fst snd]; [split; [exact (ren_looks _ _ R)|reflexivity]|].
  pose proof (step_ren ev rho K inj cutoff mu s sw c c' R) as X. destruct (simple_step ev cutoff mu s sw c) as [[d q]|], (simple_step ev cutoff mu s sw c') as [[d' q']|]; cbn [both] in X; try contradiction; [|exact I]. destruct X as [X Y]. cbn [fst snd] in X, Y. subst q'. apply IH, X.
Qed.
Lemma gsteps_ren l : forall g g' rs, gren rho K g g' -> same_outcome glooks_same (genetic_steps_of ev cutoff l (g, rs)) (genetic_steps_of ev cutoff l (g', rs)).
Proof.
  induction l as [|[[mu s] sw] l IH]; intros g g' rs R; cbn [genetic_steps_of fst snd]; [split; [split; [exact (ren_looks _ _ (proj1 R))|exact (proj2 R)]|reflexivity]|].
  pose proof (gstep_ren ev rho K inj cutoff mu s sw g g' R) as X. destruct (genetic_step ev cutoff mu s sw g) as [[d q]|], (genetic_step ev cutoff mu s sw g') as [[d' q']|]; cbn [both] in X; try contradiction; [|exact I]. destruct X as [X Y]. cbn [fst snd] in X, Y. subst q'. apply IH, X.
Qed.
End Runs.

(** If the groups newPointGroup returns are different arrays, it does not matter which they are:
    every run is the one of M_Algo, for every evaluator. *)
Theorem C96_simple : forall E (ev : evaluator E) cutoff arrs refs e s sw l, NoDup refs -> Forall (fun r => r < length arrs) refs ->
  same_outcome looks_same (simple_run_of ev cutoff (map (fun r => nth r arrs []) refs) e s sw l) (simple_run_at ev cutoff arrs refs e s sw l).
Proof.
  intros E ev cutoff arrs refs e s sw l ND IN. unfold simple_run_of, simple_run_at, new_simple, new_simple_at. pose proof (place_inj arrs refs ND IN) as J.
  pose proof (init_ren arrs refs ND IN e) as X. destruct (init_core _ e) as [d|], (init_at arrs refs e) as [d'|]; cbn [both] in X; try contradiction; [|exact I].
  pose proof (calc_ren ev _ _ s d d' X) as Y. destruct (simple_calc ev s d) as [[f q]|], (simple_calc ev s d') as [[f' q']|]; cbn [both] in Y; try contradiction; [|exact I]. destruct Y as [Y Z]. cbn [fst snd] in Y, Z. subst q'.
  pose proof (update_ren ev _ _ J sw f f' Y) as U. destruct (update_fitnesses ev sw f), (update_fitnesses ev sw f'); cbn [both option_map] in *; try contradiction; [|exact I]. exact (steps_ren ev cutoff _ _ J l _ _ _ U).
Qed.
Print Assumptions C96_simple.
Theorem C96_genetic : forall E (ev : evaluator E) cutoff arrs refs e s sw l, NoDup refs -> Forall (fun r => r < length arrs) refs ->
  same_outcome glooks_same (genetic_run_of ev cutoff (map (fun r => nth r arrs []) refs) e s sw l) (genetic_run_at ev cutoff arrs refs e s sw l).
Proof.
  intros E ev cutoff arrs refs e s sw l ND IN. unfold genetic_run_of, genetic_run_at, new_genetic, new_genetic_at. pose proof (place_inj arrs refs ND IN) as J.
  pose proof (init_ren arrs refs ND IN e) as X. destruct (init_core _ e) as [d|], (init_at arrs refs e) as [d'|]; cbn [both] in X; try contradiction; [|exact I].
  pose proof (gcalc_ren ev _ _ cutoff s (MGen d (repeat [] cutoff)) (MGen d' (repeat [] cutoff)) (conj X eq_refl)) as Y. destruct (g_calc ev cutoff s (MGen d (repeat [] cutoff))) as [[f q]|], (g_calc ev cutoff s (MGen d' (repeat [] cutoff))) as [[f' q']|]; cbn [both] in Y; try contradiction; [|exact I]. destruct Y as [[Y B] Z]. cbn [fst snd] in Y, B, Z. subst q'.
  pose proof (update_ren ev _ _ J sw _ _ Y) as U. destruct (update_fitnesses ev sw (g_core f)), (update_fitnesses ev sw (g_core f')); cbn [both option_map] in *; try contradiction; [|exact I]. exact (gsteps_ren ev cutoff _ _ J l (MGen _ (g_ben f)) (MGen _ (g_ben f')) _ (conj U B)).
Qed.
Print Assumptions C96_genetic.

(** * The same group twice *)
(** The second point is moved to the right, then back. *)
Definition move_to (x : f64) : mutator := fun _ pts => random_mutate fhalf f1 (fun k => RD (if (k =? 1)%nat then f0 else fhalf) x fhalf) pts.
Lemma move_to_ok x : draw01 x -> mutator_ok (move_to x).
Proof.
  intros Dx. apply (C30_random_ok fhalf f1 (fun i k => RD (if (k =? 1)%nat then f0 else fhalf) x fhalf)); [vm_compute; reflexivity|]. intros i k. cbn [rd_x rd_y]. split; [exact Dx|apply draw01_bool; vm_compute; reflexivity].
Qed.
Definition to_right : mutator := move_to (f64_dy 3 (-2)).
Definition to_left : mutator := move_to (f64_dy 1 (-2)).
Definition twice (arrs : list (list npoint)) (refs : list nat) (below : bool) (gf : option fimg) : bool :=
  match gf with None => false | Some fi =>
  match new_simple_at (parallel fi insertion_sort) arrs refs (new_parallel 2 3) ex_sched [] with None => false | Some (c0, r0) => sortedb (c_fits c0) &&
  match simple_step (parallel fi insertion_sort) 1 to_right ex_sched [(0, 1)] c0 with None => false | Some (c1, r1) => sortedb (c_fits c1) &&
  match simple_step (parallel fi insertion_sort) 1 to_left ex_sched [] c1 with None => false | Some (c2, r2) => sortedb (c_fits c2) &&
  match own_fitness (tri_alone fi insertion_sort) new_tfun (buf c2 (best_slice c2)) with None => false | Some f => if below then flt f (stats_best c2) else feq f (stats_best c2) end end end end end.
Lemma twice_ok arrs refs below gf : twice arrs refs below gf = true -> exists fi c0 r0 c1 r1 c2 r2 f,
  new_simple_at (parallel fi insertion_sort) arrs refs (new_parallel 2 3) ex_sched [] = Some (c0, r0) /\ sort_sorts (c_fits c0) /\
  simple_step (parallel fi insertion_sort) 1 to_right ex_sched [(0, 1)] c0 = Some (c1, r1) /\ sort_sorts (c_fits c1) /\ simple_step (parallel fi insertion_sort) 1 to_left ex_sched [] c1 = Some (c2, r2) /\ sort_sorts (c_fits c2) /\
  own_fitness (tri_alone fi insertion_sort) new_tfun (buf c2 (best_slice c2)) = Some f /\ (if below then flt f (stats_best c2) else feq f (stats_best c2)) = true.
Proof.
  unfold twice. intros H. destruct gf as [fi|]; [|discriminate H].
  destruct (new_simple_at (parallel fi insertion_sort) arrs refs (new_parallel 2 3) ex_sched []) as [[c0 r0]|] eqn:E0; [|discriminate H]. apply andb_true_iff in H as [S0 H].
  destruct (simple_step (parallel fi insertion_sort) 1 to_right ex_sched [(0, 1)] c0) as [[c1 r1]|] eqn:E1; [|discriminate H]. apply andb_true_iff in H as [S1 H].
  destruct (simple_step (parallel fi insertion_sort) 1 to_left ex_sched [] c1) as [[c2 r2]|] eqn:E2; [|discriminate H]. apply andb_true_iff in H as [S2 H].
  destruct (own_fitness (tri_alone fi insertion_sort) new_tfun (buf c2 (best_slice c2))) as [f|] eqn:Ef; [|discriminate H].
  exists fi, c0, r0, c1, r1, c2, r2, f. split; [exact E0|]. split; [intros _; apply sortedb_ok, S0|]. split; [exact E1|]. split; [intros _; apply sortedb_ok, S1|]. split; [exact E2|]. split; [intros _; apply sortedb_ok, S2|]. split; [exact Ef|exact H].
Qed.
Lemma twice_true : twice [half_pts] [0; 0] true dark_fi = true. Proof. vm_compute. reflexivity. Qed.
Lemma once_true : twice (repeat half_pts 3) [2; 0] false dark_fi = true. Proof. vm_compute. reflexivity. Qed.

(** If newPointGroup returns the same group twice, Best and Stats contradict each other after two
    Steps: the fitness of the points of Best is below BestFitness.  Mutating the second member
    also changes the first one, whose triangulation is kept. *)
Theorem C96_shared_refuted : exists fi pts mu mu' s sw c0 r0 c1 r1 c2 r2 f, mutator_ok mu /\ mutator_ok mu' /\ valid_schedule 2 s /\
  new_simple_at (parallel fi insertion_sort) [pts] [0; 0] (new_parallel 2 3) s [] = Some (c0, r0) /\ sort_sorts (c_fits c0) /\
  simple_step (parallel fi insertion_sort) 1 mu s sw c0 = Some (c1, r1) /\ sort_sorts (c_fits c1) /\ simple_step (parallel fi insertion_sort) 1 mu' s [] c1 = Some (c2, r2) /\ sort_sorts (c_fits c2) /\
  own_fitness (tri_alone fi insertion_sort) new_tfun (buf c2 (best_slice c2)) = Some f /\ flt f (stats_best c2) = true.
Proof.
  destruct (twice_ok _ _ _ _ twice_true) as (fi & c0 & r0 & c1 & r1 & c2 & r2 & f & H). exists fi, half_pts, to_right, to_left, ex_sched, [(0, 1)], c0, r0, c1, r1, c2, r2, f.
  split; [apply move_to_ok, draw01_bool; vm_compute; reflexivity|]. split; [apply move_to_ok, draw01_bool; vm_compute; reflexivity|]. split; [exact ex_sched_ok|]. exact H.
Qed.
Print Assumptions C96_shared_refuted.
(** The same Steps with two of three arrays. *)
Example C96_case : exists fi c0 r0 c1 r1 c2 r2 f, new_simple_at (parallel fi insertion_sort) (repeat half_pts 3) [2; 0] (new_parallel 2 3) ex_sched [] = Some (c0, r0) /\ sort_sorts (c_fits c0) /\
  simple_step (parallel fi insertion_sort) 1 to_right ex_sched [(0, 1)] c0 = Some (c1, r1) /\ sort_sorts (c_fits c1) /\ simple_step (parallel fi insertion_sort) 1 to_left ex_sched [] c1 = Some (c2, r2) /\ sort_sorts (c_fits c2) /\
  own_fitness (tri_alone fi insertion_sort) new_tfun (buf c2 (best_slice c2)) = Some f /\ feq f (stats_best c2) = true.
Proof. exact (twice_ok _ _ _ _ once_true). Qed.
