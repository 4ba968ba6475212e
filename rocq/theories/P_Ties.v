(** C99: how the members are sorted matters only for ties. *)
From Coq Require Import ZArith List Bool Arith Lia Permutation Sorting.Sorted.
From Flocq Require Import IEEE754.BinarySingleNaN.
From Verif Require Import GoNum M_Norm S_Norm M_Slice M_Geom M_Image M_Raster M_Delaunay M_Algo S_Algo M_Fitness S_Fitness S_Run S_Run2 M_Generic S_Generic M_Voronoi M_Polygons S_MemRun S_Ties L_Slice L_Algo L_Algo2 L_Ties P_AlgoEx P_AlgoEx2 P_Run P_Fitness P_Sched P_Shared P_Stuck.
Import ListNotations.
Local Open Scope nat_scope.

(** ParallelEvaluator: only Swap changes the order of the functions, and it changes nothing else. *)
Definition par_rest (p : par) := (p_funs p, p_arrs p, p_cur p).
Definition ppar_rest (p : ppar) := (pp_funs p, pp_arrs p, pp_cur p).
Lemma par_whole p q : p_order p = p_order q -> par_rest p = par_rest q -> p = q.
Proof. destruct p, q. cbn. unfold par_rest; cbn. congruence. Qed.
Lemma ppar_whole p q : pp_order p = pp_order q -> ppar_rest p = ppar_rest q -> p = q.
Proof. destruct p, q. cbn. unfold ppar_rest; cbn. congruence. Qed.
Lemma calc_order im srt p i pts m p' f : ev_calc (parallel im srt) p i pts m = Some (p', f) -> p_order p' = p_order p.
Proof. cbn [parallel ev_calc]. unfold par_calc. destruct (at_pos p i) as [[id t]|]; [|discriminate]. destruct (match tf_base t with Some b => b =? id | None => false end); [discriminate|]. destruct (calc_fun _ _ _ _ _ _ _) as [[f' fit]|]; [|discriminate]. intros [= <- <-]. reflexivity. Qed.
Lemma upd_order im srt p i p' : ev_update (parallel im srt) p i = Some p' -> p_order p' = p_order p.
Proof. cbn [parallel ev_update]. unfold par_update. destruct (at_pos p i) as [[id t]|]; [|discriminate]. destruct (cache_view _ _) as [[v b]|]; [|discriminate]. destruct (nth_error (p_arrs p) (p_cur p)); [|discriminate]. destruct (foldM _ _ _); [|discriminate]. intros [= <-]. reflexivity. Qed.
Lemma prep_order im srt p p' : ev_prepare (parallel im srt) p = Some p' -> p_order p' = p_order p.
Proof. intros [= <-]. reflexivity. Qed.
Lemma base_order im srt p i j p' : ev_base (parallel im srt) p i j = Some p' -> p_order p' = p_order p.
Proof. cbn [parallel ev_base]. unfold par_base. destruct (at_pos p i) as [[id t]|]; [|discriminate]. destruct (at_pos p j) as [[jd g]|]; [|discriminate]. intros [= <-]. reflexivity. Qed.
Lemma swap_order im srt p i j p' : ev_swap (parallel im srt) p i j = Some p' -> swap_at i j (p_order p) = Some (p_order p') /\ par_rest p' = par_rest p.
Proof. cbn [parallel ev_swap]. unfold par_swap. destruct (swap_at i j (p_order p)); [|discriminate]. intros [= <-]. split; reflexivity. Qed.
Lemma pcalc_order im srt hs p i pts m p' f : ev_calc (pparallel im srt hs) p i pts m = Some (p', f) -> pp_order p' = pp_order p.
Proof. cbn [pparallel ev_calc]. unfold ppar_calc. destruct (pat_pos p i) as [[id t]|]; [|discriminate]. destruct (match pf_base t with Some b => b =? id | None => false end); [discriminate|]. destruct (calc_pfun _ _ _ _ _ _ _ _) as [[f' fit]|]; [|discriminate]. intros [= <- <-]. reflexivity. Qed.
Lemma pupd_order im srt hs p i p' : ev_update (pparallel im srt hs) p i = Some p' -> pp_order p' = pp_order p.
Proof. cbn [pparallel ev_update]. unfold ppar_update. destruct (pat_pos p i) as [[id t]|]; [|discriminate]. destruct (pcache_view _ _) as [[v b]|]; [|discriminate]. destruct (nth_error (pp_arrs p) (pp_cur p)); [|discriminate]. destruct (foldM _ _ _); [|discriminate]. intros [= <-]. reflexivity. Qed.
Lemma pprep_order im srt hs p p' : ev_prepare (pparallel im srt hs) p = Some p' -> pp_order p' = pp_order p.
Proof. intros [= <-]. reflexivity. Qed.
Lemma pbase_order im srt hs p i j p' : ev_base (pparallel im srt hs) p i j = Some p' -> pp_order p' = pp_order p.
Proof. cbn [pparallel ev_base]. unfold ppar_base. destruct (pat_pos p i) as [[id t]|]; [|discriminate]. destruct (pat_pos p j) as [[jd g]|]; [|discriminate]. intros [= <-]. reflexivity. Qed.
Lemma pswap_order im srt hs p i j p' : ev_swap (pparallel im srt hs) p i j = Some p' -> swap_at i j (pp_order p) = Some (pp_order p') /\ ppar_rest p' = ppar_rest p.
Proof. cbn [pparallel ev_swap]. unfold ppar_swap. destruct (swap_at i j (pp_order p)); [|discriminate]. intros [= <-]. split; reflexivity. Qed.

(** Two runs that differ only in the swaps sort.Sort makes are equal - members, fitnesses, results,
    caches and triangulations - as long as one of them meets no ties. *)
Theorem C99_simple : forall im srt cutoff groups pow2 p q, twins (parallel im srt) cutoff groups (new_parallel (length groups) pow2) p q -> p = q.
Proof.
  intros im srt cutoff groups pow2 p q T. refine (proj1 (twins_same (parallel im srt) p_order par_rest par_whole (calc_order im srt) (upd_order im srt) (prep_order im srt) (base_order im srt) (swap_order im srt) (length groups) cutoff groups _ p q eq_refl _ T)). apply seq_length.
Qed.
Print Assumptions C99_simple.
Theorem C99_genetic : forall im srt cutoff groups pow2 p q, gtwins (parallel im srt) cutoff groups (new_parallel (length groups) pow2) p q -> p = q.
Proof.
  intros im srt cutoff groups pow2 p q T. refine (proj1 (gtwins_same (parallel im srt) p_order par_rest par_whole (calc_order im srt) (upd_order im srt) (prep_order im srt) (base_order im srt) (swap_order im srt) (length groups) cutoff groups _ p q eq_refl _ T)). apply seq_length.
Qed.
Print Assumptions C99_genetic.
Theorem C99_polygons : forall im srt hs cutoff groups pow2 p q, twins (pparallel im srt hs) cutoff groups (new_pparallel (length groups) pow2) p q -> p = q.
Proof.
  intros im srt hs cutoff groups pow2 p q T. refine (proj1 (twins_same (pparallel im srt hs) pp_order ppar_rest ppar_whole (pcalc_order im srt hs) (pupd_order im srt hs) (pprep_order im srt hs) (pbase_order im srt hs) (pswap_order im srt hs) (length groups) cutoff groups _ p q eq_refl _ T)). apply seq_length.
Qed.
Print Assumptions C99_polygons.
Theorem C99_polygons_genetic : forall im srt hs cutoff groups pow2 p q, gtwins (pparallel im srt hs) cutoff groups (new_pparallel (length groups) pow2) p q -> p = q.
Proof.
  intros im srt hs cutoff groups pow2 p q T. refine (proj1 (gtwins_same (pparallel im srt hs) pp_order ppar_rest ppar_whole (pcalc_order im srt hs) (pupd_order im srt hs) (pprep_order im srt hs) (pbase_order im srt hs) (pswap_order im srt hs) (length groups) cutoff groups _ p q eq_refl _ T)). apply seq_length.
Qed.
Print Assumptions C99_polygons_genetic.

(** With ties, too, the sort does not decide BestFitness of that generation: neither is less. *)
Lemma swaps_fits_perm {E} (ev : evaluator E) sw : forall c c', do_swaps ev sw c = Some c' -> Permutation (c_fits c') (c_fits c).
Proof.
  induction sw as [|[i j] sw IH]; intros c c'; cbn [do_swaps]; [intros [= <-]; apply Permutation_refl|]. unfold swap_members. destruct (swap_at i j (c_fits c)) as [f|] eqn:Ef; [|discriminate]. destruct (swap_at i j (c_pop c)); [|discriminate]. destruct (ev_swap ev (c_ev c) i j); [|discriminate].
  intros H. apply IH in H. cbn in H. exact (Permutation_trans H (swap_at_perm _ _ _ _ Ef)).
Qed.
Lemma head_top fits f x : sorted fits -> nth_error fits 0 = Some f -> In x fits -> flt f x = true -> f = x.
Proof.
  intros O H I F. apply (In_nth _ _ f0) in I as ([|k] & Lk & <-).
  - destruct fits; [discriminate H|]. cbn in *. congruence.
  - exfalso. specialize (O 0 (S k) ltac:(lia)). unfold less in O. destruct fits as [|a t]; [discriminate H|]. cbn [nth_error] in H. injection H as ->. cbn [nth] in O, F. rewrite F in O. discriminate O.
Qed.
Theorem C99_best_fitness : forall E (ev : evaluator E) sw sw' c d d', update_fitnesses ev sw c = Some d -> update_fitnesses ev sw' c = Some d' -> sorted (c_fits d) -> sorted (c_fits d') ->
  flt (stats_best d) (stats_best d') = false /\ flt (stats_best d') (stats_best d) = false.
Proof.
  intros E ev sw sw' c d d'. unfold update_fitnesses. destruct (do_swaps ev sw c) as [b|] eqn:B; [|discriminate]. destruct (do_swaps ev sw' c) as [b'|] eqn:B'; [|discriminate]. apply swaps_fits_perm in B, B'. unfold take_best.
  destruct (nth_error (c_pop b) 0); [|discriminate]. destruct (nth_error (c_fits b) 0) as [f|] eqn:F; [|discriminate]. destruct (buf_set _ _ _); [|discriminate]. intros [= <-].
  destruct (nth_error (c_pop b') 0); [|discriminate]. destruct (nth_error (c_fits b') 0) as [f'|] eqn:F'; [|discriminate]. destruct (buf_set _ _ _); [|discriminate]. intros [= <-] O O'. cbn in O, O'. unfold stats_best; cbn [c_bestfit].
  assert (I : In f (c_fits b')) by (apply (Permutation_in _ (Permutation_sym B')), (Permutation_in _ B), (nth_error_In _ _ F)). assert (I' : In f' (c_fits b)) by (apply (Permutation_in _ (Permutation_sym B)), (Permutation_in _ B'), (nth_error_In _ _ F')).
  split; match goal with |- flt ?x ?y = false => destruct (flt x y) eqn:Q0; [|reflexivity] end.
  - pose proof (head_top _ _ _ O F I' Q0) as <-. rewrite L_Stuck.flt_self in Q0. discriminate Q0.
  - pose proof (head_top _ _ _ O' F' I Q0) as <-. rewrite L_Stuck.flt_self in Q0. discriminate Q0.
Qed.
Print Assumptions C99_best_fitness.

(** But it decides Best: two triangles of the same size on a black image. *)
Definition shifted_pts : list npoint := [q8 1 0; q8 5 0; q8 1 4].
Definition tied (gf : option fimg) : bool :=
  match gf with None => false | Some fi =>
  match new_simple (parallel fi insertion_sort) [half_pts; shifted_pts] (new_parallel 2 3) ex_sched [], new_simple (parallel fi insertion_sort) [half_pts; shifted_pts] (new_parallel 2 3) ex_sched [(0, 1)] with
  | Some (c, _), Some (c', _) => sortedb (c_fits c) && sortedb (c_fits c') && flt (first_x (buf c (best_slice c))) (first_x (buf c' (best_slice c'))) | _, _ => false end end.
Lemma tied_true : tied dark_fi = true. Proof. vm_compute. reflexivity. Qed.
Theorem C99_ties_refuted : exists fi groups s sw sw' c r c' r', length groups = 2 /\ valid_schedule 2 s /\ new_simple (parallel fi insertion_sort) groups (new_parallel 2 3) s sw = Some (c, r) /\ sorted (c_fits c) /\
  new_simple (parallel fi insertion_sort) groups (new_parallel 2 3) s sw' = Some (c', r') /\ sorted (c_fits c') /\ buf c (best_slice c) <> buf c' (best_slice c').
Proof.
  pose proof tied_true as H. unfold tied in H. destruct dark_fi as [fi|]; [|discriminate H].
  destruct (new_simple (parallel fi insertion_sort) [half_pts; shifted_pts] (new_parallel 2 3) ex_sched []) as [[c r]|] eqn:E0; [|discriminate H]. destruct (new_simple (parallel fi insertion_sort) [half_pts; shifted_pts] (new_parallel 2 3) ex_sched [(0, 1)]) as [[c' r']|] eqn:E1; [|discriminate H].
  apply andb_true_iff in H as [H H2]. apply andb_true_iff in H as [H0 H1]. exists fi, [half_pts; shifted_pts], ex_sched, [], [(0, 1)], c, r, c', r'. split; [reflexivity|]. split; [exact ex_sched_ok|]. split; [exact E0|]. split; [apply sortedb_ok, H0|]. split; [exact E1|]. split; [apply sortedb_ok, H1|].
  intros Q0. rewrite Q0, L_Stuck.flt_self in H2. discriminate H2.
Qed.
Print Assumptions C99_ties_refuted.

(** Two runs with other swaps and no ties: a small triangle and a larger one, which then grows. *)
Definition small_pts : list npoint := [q8 0 0; q8 2 0; q8 0 2].
Definition thrice : list (nat * nat) := [(0, 1); (1, 0); (0, 1)].
Definition twin_check (gf : option fimg) : bool :=
  match gf with None => false | Some fi =>
  match new_simple (parallel fi insertion_sort) [small_pts; half_pts] (new_parallel 2 3) ex_sched [(0, 1)], new_simple (parallel fi insertion_sort) [small_pts; half_pts] (new_parallel 2 3) ex_sched thrice with
  | Some (c, _), Some (c', _) => (length (c_fits c) =? 2) && flt (nth 1 (c_fits c) f0) (nth 0 (c_fits c) f0) && sortedb (c_fits c') &&
    match simple_step (parallel fi insertion_sort) 1 to_right ex_sched [(0, 1)] c, simple_step (parallel fi insertion_sort) 1 to_right ex_sched thrice c' with
    | Some (d, _), Some (d', _) => (length (c_fits d) =? 2) && flt (nth 1 (c_fits d) f0) (nth 0 (c_fits d) f0) && sortedb (c_fits d') && (stats_gen d =? 1)%Z
    | _, _ => false end
  | _, _ => false end end.
Lemma twin_true : twin_check dark_fi = true. Proof. vm_compute. reflexivity. Qed.
Lemma two_no_ties l : (length l =? 2) && flt (nth 1 l f0) (nth 0 l f0) = true -> no_ties l.
Proof. intros H. apply andb_true_iff in H as [H1 H2]. apply Nat.eqb_eq in H1. intros i j L. assert (i = 0 /\ j = 1) as (-> & ->) by lia. exact H2. Qed.
Example C99_case : exists fi p q, twins (parallel fi insertion_sort) 1 [small_pts; half_pts] (new_parallel 2 3) p q /\ stats_gen (fst p) = 1%Z.
Proof.
  pose proof twin_true as H. unfold twin_check in H. destruct dark_fi as [fi|]; [|discriminate H].
  destruct (new_simple (parallel fi insertion_sort) [small_pts; half_pts] (new_parallel 2 3) ex_sched [(0, 1)]) as [[c r]|] eqn:E0; [|discriminate H]. destruct (new_simple (parallel fi insertion_sort) [small_pts; half_pts] (new_parallel 2 3) ex_sched thrice) as [[c' r']|] eqn:E1; [|discriminate H].
  apply andb_true_iff in H as [H H2]. apply andb_true_iff in H as [H H1].
  destruct (simple_step (parallel fi insertion_sort) 1 to_right ex_sched [(0, 1)] c) as [[d q]|] eqn:E2; [|discriminate H2]. destruct (simple_step (parallel fi insertion_sort) 1 to_right ex_sched thrice c') as [[d' q']|] eqn:E3; [|discriminate H2].
  apply andb_true_iff in H2 as [H2 G]. apply andb_true_iff in H2 as [H2 H3]. exists fi, (d, q), (d', q'). split; [|apply Z.eqb_eq, G].
  refine (tw_step _ _ _ _ c c' r r' to_right ex_sched [(0, 1)] thrice d d' q q' _ E2 E3 (two_no_ties _ H2) (sortedb_ok _ H3)). exact (tw_new _ _ _ _ ex_sched [(0, 1)] thrice c c' r r' E0 E1 (two_no_ties _ H) (sortedb_ok _ H1)).
Qed.
