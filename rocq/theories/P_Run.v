(** Whole runs of the algorithms over the parallel evaluator: C28, and C32 and C33 without
    assuming anything on the evaluator. *)
From Coq Require Import ZArith List Bool Arith Lia Permutation.
From Flocq Require Import IEEE754.BinarySingleNaN.
From Verif Require Import GoNum M_Norm M_Slice M_Geom M_Image M_Raster S_Norm M_Delaunay S_Delaunay M_Algo S_Algo M_Fitness S_Fitness S_Run
  L_Insert L_Hist L_Reach L_Algo L_Algo2 L_Algo3 L_Algo4 L_Algo5 L_Fit L_Fit3 L_Sim L_Hold L_Tri P_Algo P_AlgoEx P_Fitness.
Import ListNotations.
Open Scope Z_scope.

(** The parallel evaluator simulates the one without caches. *)
Section Par.
Context (im : fimg) (srt : point -> list point -> option (list point)).
Lemma par_calc_sim p i pts log p' v : par_ok im p -> ev_calc (parallel im srt) p i pts log = Some (p', v) ->
  par_ok im p' /\ ev_calc (bare_ev im srt) (strip p) i pts log = Some (strip p', v).
Proof.
  intros O E. destruct (par_step_sim im srt p [] (OCalc i pts log) p' [v] O) as [H1 H2]; [unfold eop_step; rewrite E; reflexivity|].
  split; [exact H1|]. unfold eop_step in H2. destruct (ev_calc (bare_ev im srt) (strip p) i pts log) as [[b u]|]; [|discriminate]. cbn [option_map fst snd app] in H2.
  injection H2 as -> ->. reflexivity.
Qed.
Lemma par_upd_sim p i p' : par_ok im p -> ev_update (parallel im srt) p i = Some p' -> par_ok im p' /\ ev_update (bare_ev im srt) (strip p) i = Some (strip p').
Proof.
  intros O E. destruct (par_step_sim im srt p [] (OUpdate i) p' [] O) as [H1 H2]; [unfold eop_step; rewrite E; reflexivity|].
  split; [exact H1|]. unfold eop_step in H2. destruct (ev_update (bare_ev im srt) (strip p) i) as [b|]; [|discriminate]. cbn [option_map] in H2. injection H2 as ->. reflexivity.
Qed.
Lemma par_prep_sim p p' : par_ok im p -> ev_prepare (parallel im srt) p = Some p' -> par_ok im p' /\ ev_prepare (bare_ev im srt) (strip p) = Some (strip p').
Proof.
  intros O E. destruct (par_step_sim im srt p [] OPrepare p' [] O) as [H1 H2]; [unfold eop_step; rewrite E; reflexivity|].
  split; [exact H1|]. unfold eop_step in H2. destruct (ev_prepare (bare_ev im srt) (strip p)) as [b|]; [|discriminate]. cbn [option_map] in H2. injection H2 as ->. reflexivity.
Qed.
Lemma par_base_sim p i j p' : par_ok im p -> ev_base (parallel im srt) p i j = Some p' -> par_ok im p' /\ ev_base (bare_ev im srt) (strip p) i j = Some (strip p').
Proof.
  intros O E. destruct (par_step_sim im srt p [] (OBase i j) p' [] O) as [H1 H2]; [unfold eop_step; rewrite E; reflexivity|].
  split; [exact H1|]. unfold eop_step in H2. destruct (ev_base (bare_ev im srt) (strip p) i j) as [b|]; [|discriminate]. cbn [option_map] in H2. injection H2 as ->. reflexivity.
Qed.
Lemma par_swap_sim p i j p' : par_ok im p -> ev_swap (parallel im srt) p i j = Some p' -> par_ok im p' /\ ev_swap (bare_ev im srt) (strip p) i j = Some (strip p').
Proof.
  intros O E. destruct (par_step_sim im srt p [] (OSwap i j) p' [] O) as [H1 H2]; [unfold eop_step; rewrite E; reflexivity|].
  split; [exact H1|]. unfold eop_step in H2. destruct (ev_swap (bare_ev im srt) (strip p) i j) as [b|]; [|discriminate]. cbn [option_map] in H2. injection H2 as ->. reflexivity.
Qed.

Context (cutoff n l pow2 : nat).
Hypothesis Hsize : good_size (fi_w im) (fi_h im).
Hypothesis Hsort : forall p q q', srt p q = Some q' -> Permutation q q'.
Hypothesis Hl : Z.of_nat l <= 65535.
Hypothesis Hcut : cutoff <> 0%nat.
Notation F := (cmap strip). Notation ev := (bare_ev im srt).
Notation Held := (held (plain_fitness im) (tri_of im) l). Notation GHeld := (gheld (plain_fitness im) (tri_of im) l).

Lemma size_ok' : size_ok (fi_w im) (fi_h im). Proof. apply good_size_ok, Hsize. Qed.
Lemma a_delaunay : delaunay. Proof. repeat constructor; exact 0. Qed.

Record sinv (c : core par) : Prop := {
  si_ok : par_ok im (c_ev c); si_hist : simple_history ev cutoff n l (F c); si_held : Held n (F c);
  si_nan : forall f, In f (c_fits c) -> is_nan f = false }.
Lemma simple_step_inv c mu s sw c' r : sinv c -> mutator_ok mu -> valid_schedule n s -> simple_step (parallel im srt) cutoff mu s sw c = Some (c', r) -> sorted (c_fits c') ->
  Forall (fun x => is_nan (snd x) = false) r -> sinv c' /\ forall i, (i < cutoff)%nat -> In (nth i (c_fits c) f0) (c_fits c').
Proof.
  intros [O H He N] Hmu Hv E So Na.
  destruct (sim_simple_step (parallel im srt) ev strip (par_ok im) par_calc_sim par_upd_sim par_prep_sim par_base_sim par_swap_sim cutoff mu s sw c c' r O E) as [O' E'].
  destruct (simple_history_shape ev cutoff n l (F c) Hcut H) as [Sh Sq].
  destruct (simple_held (next_tri im srt) (plain_fitness im) (tri_of im) l (tri_new im srt l size_ok' Hl) (tri_keep im srt) (tri_mod im srt l size_ok' Hsort Hl)
    cutoff mu s sw n (F c) (F c') r Hcut Sh Sq Hmu Hv He E') as (He' & K & Nr).
  split; [|intros i Hi; apply (K i Hi)]. constructor; [exact O'| |exact He'|].
  - eapply sh_step; eauto.
  - intros f Hf. destruct (Nr f Hf) as (i & Hi). rewrite Forall_forall in Na. apply (Na _ Hi).
Qed.
Lemma simple_run_inv c : simple_run im srt cutoff n l pow2 c -> sinv c.
Proof.
  induction 1 as [groups s sw c r L Gf Hv E So Na|c mu s sw c' r _ IH Hmu Hv E So Na].
  - destruct (new_parallel_ok im n pow2) as [O St].
    destruct (sim_new_simple (parallel im srt) ev strip (par_ok im) par_calc_sim par_upd_sim par_prep_sim par_swap_sim groups (new_parallel n pow2) s sw c r O E) as [O' E'].
    rewrite St in E'.
    destruct (new_simple_held (next_tri im srt) (plain_fitness im) (tri_of im) l (tri_new im srt l size_ok' Hl) (tri_keep im srt) (tri_mod im srt l size_ok' Hsort Hl)
      a_delaunay groups s sw n (F c) r L Gf Hv E') as [He Nr].
    constructor; [exact O'| |exact He|].
    + eapply sh_init; eauto.
    + intros f Hf. destruct (Nr f Hf) as (i & Hi). rewrite Forall_forall in Na. apply (Na _ Hi).
  - apply (simple_step_inv c mu s sw c' r IH Hmu Hv E So Na).
Qed.

Record ginv (g : mgen par) : Prop := {
  gi_ok : par_ok im (c_ev (g_core g)); gi_hist : genetic_history ev cutoff n l (gmap strip g); gi_held : GHeld cutoff n (F (g_core g));
  gi_sorted : sorted (c_fits (g_core g)) }.
Hypothesis H2c : (2 * cutoff <= n)%nat.
Lemma genetic_step_inv g mu s sw g' r : ginv g -> mutator_ok mu -> valid_schedule (n - cutoff) s -> genetic_step (parallel im srt) cutoff mu s sw g = Some (g', r) ->
  sorted (c_fits (g_core g')) -> Forall (fun x => flt f0 (snd x) = true) r -> ginv g' /\ forall i, (i < cutoff)%nat -> In (nth i (c_fits (g_core g)) f0) (c_fits (g_core g')).
Proof.
  intros [O H He S0] Hmu Hv E So Po.
  destruct (sim_genetic_step (parallel im srt) ev strip (par_ok im) par_calc_sim par_upd_sim par_prep_sim par_base_sim par_swap_sim cutoff mu s sw g g' r O E) as [O' E'].
  destruct (genetic_history_shape ev cutoff n l (gmap strip g) Hcut H) as (Sh & Sq & Lb & _).
  destruct (genetic_held (next_tri im srt) (plain_fitness im) (tri_of im) l (tri_new im srt l size_ok' Hl) (tri_keep im srt) (tri_mod im srt l size_ok' Hsort Hl)
    cutoff mu s sw n (F (g_core g)) (g_ben g) (gmap strip g') r Hcut H2c Sh Sq Hmu Hv Lb He S0 E' Po) as (He' & K).
  split; [|intros i Hi; apply (K i Hi)]. constructor; [exact O'| |exact He'|exact So]. eapply gh_step; eauto.
Qed.
Lemma genetic_run_inv g : genetic_run im srt cutoff n l pow2 g -> ginv g.
Proof.
  induction 1 as [groups s sw g r L Gf Hv E So Po|g mu s sw g' r _ IH Hmu Hv E So Po].
  - destruct (new_parallel_ok im n pow2) as [O St].
    destruct (sim_new_genetic (parallel im srt) ev strip (par_ok im) par_calc_sim par_upd_sim par_prep_sim par_swap_sim cutoff groups (new_parallel n pow2) s sw g r O E) as [O' E'].
    rewrite St in E'.
    pose proof (new_genetic_held (next_tri im srt) (plain_fitness im) (tri_of im) l (tri_new im srt l size_ok' Hl) (tri_keep im srt) (tri_mod im srt l size_ok' Hsort Hl)
      a_delaunay cutoff groups s sw n (gmap strip g) r Hcut L Gf Hv E' Po) as He.
    constructor; [exact O'| |exact He|exact So]. eapply gh_init; eauto.
  - apply (genetic_step_inv g mu s sw g' r IH Hmu Hv E So Po).
Qed.
End Par.

(** * C28 *)
Lemma strip_own im p i pts f l : good_size (fi_w im) (fi_h im) -> holdsat (plain_fitness im) (tri_of im) l (strip p) i pts f -> evaluated_own im p i pts f.
Proof.
  intros Hs (_ & id & d & A & B & C). rewrite b_at_strip in A. destruct (at_pos p i) as [[id' t]|] eqn:Ea; [|discriminate]. cbn [option_map fst snd] in A.
  injection A as -> T B0. exists id, t, d. split; [exact Ea|]. split; [exact T|]. split; [exact B0|]. split; [exact B|]. split; [|exact C].
  intros q Hq. apply tri_of_copies; [apply good_size_ok, Hs|exact B|exact Hq].
Qed.
Theorem C28_simple im srt cutoff n l pow2 c : good_size (fi_w im) (fi_h im) -> (forall p q q', srt p q = Some q' -> Permutation q q') -> Z.of_nat l <= 65535 ->
  cutoff <> 0%nat -> simple_run im srt cutoff n l pow2 c ->
  forall i, (i < n)%nat -> evaluated_own im (c_ev c) i (nth i (members c) []) (nth i (c_fits c) f0).
Proof.
  intros Hs So Hl Hc R i Hi. destruct (simple_run_inv im srt cutoff n l pow2 Hs So Hl Hc c R) as [_ _ [_ He] _].
  specialize (He i Hi). apply strip_own in He; [exact He|exact Hs].
Qed.
Print Assumptions C28_simple.
(** In the modified genetic algorithm a member that was not evaluated has the fitness 0. *)
Theorem C28_genetic im srt cutoff n l pow2 g : good_size (fi_w im) (fi_h im) -> (forall p q q', srt p q = Some q' -> Permutation q q') -> Z.of_nat l <= 65535 ->
  cutoff <> 0%nat -> (2 * cutoff <= n)%nat -> genetic_run im srt cutoff n l pow2 g -> let c := g_core g in
  (forall i, (i < n)%nat -> (evaluated_own im (c_ev c) i (nth i (members c) []) (nth i (c_fits c) f0) /\ flt f0 (nth i (c_fits c) f0) = true) \/ nth i (c_fits c) f0 = f0) /\
  (forall i, (i < cutoff)%nat -> evaluated_own im (c_ev c) i (nth i (members c) []) (nth i (c_fits c) f0) /\ flt f0 (nth i (c_fits c) f0) = true).
Proof.
  intros Hs So Hl Hc H2 R. cbv zeta. destruct (genetic_run_inv im srt cutoff n l pow2 Hs So Hl Hc H2 g R) as [_ Hh (_ & Hcnt & He) Hso].
  assert (A : forall i, (i < n)%nat -> (evaluated_own im (c_ev (g_core g)) i (nth i (members (g_core g)) []) (nth i (c_fits (g_core g)) f0) /\ flt f0 (nth i (c_fits (g_core g)) f0) = true) \/ nth i (c_fits (g_core g)) f0 = f0).
  { intros i Hi. destruct (He i Hi) as [[A B]|[A _]]; [left|right; exact A]. split; [|exact B]. apply strip_own in A; [exact A|exact Hs]. }
  split; [exact A|]. intros i Hi. destruct (A i ltac:(lia)) as [B|B]; [exact B|]. exfalso.
  destruct (genetic_history_shape (bare_ev im srt) cutoff n l _ Hc Hh) as (Sh & _).
  apply (top_positive cutoff (c_fits (g_core g)) i Hso); try exact B; try exact Hi.
  - rewrite (sh_fits _ _ _ Sh : length (c_fits (g_core g)) = n). exact Hcnt.
  - rewrite (sh_fits _ _ _ Sh : length (c_fits (g_core g)) = n). exact H2.
Qed.
Print Assumptions C28_genetic.

(** * C32 and C33 for the program's own evaluator *)
Lemma head_above fits f : sorted fits -> In f fits -> (forall x, In x fits -> is_nan x = false) -> not_above f (nth 0 fits f0).
Proof.
  intros So I N. apply (In_nth _ _ f0) in I as (k & Hk & <-). split; [apply N, nth_In, Hk|]. split; [apply N, nth_In; lia|].
  destruct k as [|k]; [apply not_above_refl, N, nth_In; lia|]. apply (So 0%nat (S k)). lia.
Qed.
Theorem C32_simple_parallel im srt cutoff n l pow2 c mu s sw c' r : good_size (fi_w im) (fi_h im) -> (forall p q q', srt p q = Some q' -> Permutation q q') -> Z.of_nat l <= 65535 ->
  cutoff <> 0%nat -> simple_run im srt cutoff n l pow2 c -> mutator_ok mu -> valid_schedule n s ->
  simple_step (parallel im srt) cutoff mu s sw c = Some (c', r) -> sorted (c_fits c') -> Forall (fun x => is_nan (snd x) = false) r ->
  not_above (stats_best c) (stats_best c').
Proof.
  intros Hs So Hl Hc R Hmu Hv E Sd Na. pose proof (simple_run_inv im srt cutoff n l pow2 Hs So Hl Hc c R) as I.
  destruct (simple_step_inv im srt cutoff n l Hs So Hl Hc c mu s sw c' r I Hmu Hv E Sd Na) as [I' K].
  destruct (simple_evaluated (bare_ev im srt) cutoff n l _ Hc (si_hist _ _ _ _ _ _ I)) as (_ & _ & B1 & _).
  destruct (simple_evaluated (bare_ev im srt) cutoff n l _ Hc (si_hist _ _ _ _ _ _ I')) as (_ & _ & B2 & _).
  unfold stats_best. change (c_bestfit c = nth 0 (c_fits c) f0) in B1. change (c_bestfit c' = nth 0 (c_fits c') f0) in B2. rewrite B1, B2.
  apply head_above; [exact Sd|apply K; lia|apply (si_nan _ _ _ _ _ _ I')].
Qed.
Print Assumptions C32_simple_parallel.
Theorem C33_genetic_parallel im srt cutoff n l pow2 g mu s sw g' r : good_size (fi_w im) (fi_h im) -> (forall p q q', srt p q = Some q' -> Permutation q q') -> Z.of_nat l <= 65535 ->
  cutoff <> 0%nat -> (2 * cutoff <= n)%nat -> genetic_run im srt cutoff n l pow2 g -> mutator_ok mu -> valid_schedule (n - cutoff) s ->
  genetic_step (parallel im srt) cutoff mu s sw g = Some (g', r) -> sorted (c_fits (g_core g')) -> Forall (fun x => flt f0 (snd x) = true) r ->
  not_above (stats_best (g_core g)) (stats_best (g_core g')).
Proof.
  intros Hs So Hl Hc H2 R Hmu Hv E Sd Po. pose proof (genetic_run_inv im srt cutoff n l pow2 Hs So Hl Hc H2 g R) as I.
  destruct (genetic_step_inv im srt cutoff n l Hs So Hl Hc H2 g mu s sw g' r I Hmu Hv E Sd Po) as [I' K].
  destruct (genetic_evaluated (bare_ev im srt) cutoff n l _ Hc (gi_hist _ _ _ _ _ _ I)) as (_ & _ & B1 & _).
  destruct (genetic_evaluated (bare_ev im srt) cutoff n l _ Hc (gi_hist _ _ _ _ _ _ I')) as (_ & _ & B2 & _).
  unfold stats_best. change (c_bestfit (g_core g) = nth 0 (c_fits (g_core g)) f0) in B1. change (c_bestfit (g_core g') = nth 0 (c_fits (g_core g')) f0) in B2. rewrite B1, B2.
  apply head_above; [exact Sd|apply K; lia|]. intros x Hx. apply (In_nth _ _ f0) in Hx as (k & Hk & <-).
  destruct (genetic_history_shape (bare_ev im srt) cutoff n l _ Hc (gi_hist _ _ _ _ _ _ I')) as (Sh & _). rewrite (sh_fits _ _ _ Sh : length (c_fits (g_core g')) = n) in Hk.
  destruct (gi_held _ _ _ _ _ _ I') as (_ & _ & He). destruct (He k Hk) as [[_ A]|[A _]]; [apply (flt_nan _ _ A)|].
  change (nth k (c_fits (g_core g')) f0 = f0) in A. rewrite A. reflexivity.
Qed.
Print Assumptions C33_genetic_parallel.

(** * Concrete runs
    Five points on a 6x6 image; the mutation moves the last point. *)
Definition nudge : mutator := fun i pts => random_mutate f1 (fdiv f1 (f64_of_Z 4)) (fun k => RD (if (k =? 4)%nat then fhalf else f1) (f64_dy 3 (-2)) (f64_dy 1 (-3))) pts.
Lemma nudge_ok : mutator_ok nudge.
Proof.
  apply (C30_random_ok f1 (fdiv f1 (f64_of_Z 4)) (fun _ k => RD (if (k =? 4)%nat then fhalf else f1) (f64_dy 3 (-2)) (f64_dy 1 (-3)))); [vm_compute; reflexivity|]. intros _ k. cbn [rd_x rd_y].
  split; apply draw01_bool; vm_compute; reflexivity.
Qed.
Lemma pts_ok ps k : forallb (fun p => is_finite (nx p) && is_finite (ny p) && (fle f0 (nx p) && fle (nx p) f1 && fle f0 (ny p) && fle (ny p) f1)) ps = true ->
  Forall (fun g => length g = length ps /\ Forall pt_in_unit g) (repeat ps k).
Proof.
  intros H. apply Forall_forall. intros g Hg. apply repeat_spec in Hg. subst g. split; [reflexivity|]. apply Forall_forall. intros p Hp. rewrite forallb_forall in H. specialize (H p Hp).
  rewrite !andb_true_iff in H. apply unit_bool; [tauto|]. rewrite !andb_true_iff. tauto.
Qed.
Definition no_nans (r : list (nat * f64)) : bool := forallb (fun x => negb (is_nan (snd x))) r.
Lemma no_nans_ok r : no_nans r = true -> Forall (fun x => is_nan (snd x) = false) r.
Proof. intros H. apply Forall_forall. intros x Hx. unfold no_nans in H. rewrite forallb_forall in H. specialize (H x Hx). destruct (is_nan (snd x)); [discriminate|reflexivity]. Qed.
Definition all_pos (r : list (nat * f64)) : bool := forallb (fun x => flt f0 (snd x)) r.
Lemma all_pos_ok r : all_pos r = true -> Forall (fun x => flt f0 (snd x) = true) r.
Proof. intros H. apply Forall_forall. intros x Hx. unfold all_pos in H. rewrite forallb_forall in H. exact (H x Hx). Qed.

(** simple, two members, cutoff 1: the second member is fitter and moved to the front. *)
Definition ex_run (gf : option fimg) : bool :=
  match gf with None => false | Some fi =>
  match new_simple (parallel fi insertion_sort) (repeat pts0 2) (new_parallel 2 3) ex_sched [] with None => false | Some (c0, r0) =>
  sortedb (c_fits c0) && no_nans r0 &&
  match simple_step (parallel fi insertion_sort) 1 nudge ex_sched [(0, 1)%nat] c0 with None => false | Some (c1, r1) =>
  sortedb (c_fits c1) && no_nans r1 && flt (stats_best c0) (stats_best c1) &&
  match simple_step (parallel fi insertion_sort) 1 nudge ex_sched [] c1 with None => false | Some (c2, r2) =>
  (fi_w fi =? 6) && (fi_h fi =? 6) && sortedb (c_fits c2) && no_nans r2 && (stats_gen c2 =? 2) end end end end.
Lemma ex_run_ok gf : ex_run gf = true -> exists fi c0 c1 c2, good_size (fi_w fi) (fi_h fi) /\ simple_run fi insertion_sort 1 2 5 3 c0 /\ simple_run fi insertion_sort 1 2 5 3 c1 /\ simple_run fi insertion_sort 1 2 5 3 c2 /\
  flt (stats_best c0) (stats_best c1) = true /\ stats_gen c2 = 2.
Proof.
  unfold ex_run. intros H. destruct gf as [fi|]; [|discriminate].
  destruct (new_simple (parallel fi insertion_sort) (repeat pts0 2) (new_parallel 2 3) ex_sched []) as [[c0 r0]|] eqn:E0; [|discriminate]. rewrite !andb_true_iff in H. destruct H as [[S0 N0] H].
  destruct (simple_step (parallel fi insertion_sort) 1 nudge ex_sched [(0, 1)%nat] c0) as [[c1 r1]|] eqn:E1; [|discriminate]. rewrite !andb_true_iff in H. destruct H as [[[S1 N1] B1] H].
  destruct (simple_step (parallel fi insertion_sort) 1 nudge ex_sched [] c1) as [[c2 r2]|] eqn:E2; [|discriminate]. rewrite !andb_true_iff in H. destruct H as [[[[W2 H2] S2] N2] B2].
  apply Z.eqb_eq in W2, H2.
  assert (R0 : simple_run fi insertion_sort 1 2 5 3 c0).
  { eapply sr_new; [| | |exact E0| |]; [reflexivity|apply (pts_ok pts0); vm_compute; reflexivity|apply ex_sched_ok|apply sortedb_ok, S0|apply no_nans_ok, N0]. }
  assert (R1 : simple_run fi insertion_sort 1 2 5 3 c1).
  { eapply sr_step; [exact R0|apply nudge_ok|apply ex_sched_ok|exact E1|apply sortedb_ok, S1|apply no_nans_ok, N1]. }
  exists fi, c0, c1, c2. rewrite W2, H2. split; [unfold good_size; lia|]. split; [exact R0|]. split; [exact R1|]. apply Z.eqb_eq in B2. split; [|split; assumption].
  eapply sr_step; [exact R1|apply nudge_ok|apply ex_sched_ok|exact E2|apply sortedb_ok, S2|apply no_nans_ok, N2].
Qed.
Example C28_simple_case : exists fi c0 c1 c2, good_size (fi_w fi) (fi_h fi) /\ simple_run fi insertion_sort 1 2 5 3 c0 /\ simple_run fi insertion_sort 1 2 5 3 c1 /\ simple_run fi insertion_sort 1 2 5 3 c2 /\
  flt (stats_best c0) (stats_best c1) = true /\ stats_gen c2 = 2.
Proof. apply (ex_run_ok grad_fi). vm_compute. reflexivity. Qed.
(** modifiedGenetic, three members, cutoff 1: member 2 collects the improvement of member 1. *)
Definition ex_grun (gf : option fimg) : bool :=
  match gf with None => false | Some fi =>
  match new_genetic (parallel fi insertion_sort) 1 (repeat pts0 3) (new_parallel 3 3) ex_sched [] with None => false | Some (g0, r0) =>
  sortedb (c_fits (g_core g0)) && all_pos r0 && feq (nth 2 (c_fits (g_core g0)) f1) f0 &&
  match genetic_step (parallel fi insertion_sort) 1 nudge ex_sched [(0, 2)%nat] g0 with None => false | Some (g1, r1) =>
  (fi_w fi =? 6) && (fi_h fi =? 6) && sortedb (c_fits (g_core g1)) && all_pos r1 && (length r1 =? 3)%nat && flt (stats_best (g_core g0)) (stats_best (g_core g1)) end end end.
Lemma ex_grun_ok gf : ex_grun gf = true -> exists fi g0 g1, good_size (fi_w fi) (fi_h fi) /\ genetic_run fi insertion_sort 1 3 5 3 g0 /\ genetic_run fi insertion_sort 1 3 5 3 g1 /\
  feq (nth 2 (c_fits (g_core g0)) f1) f0 = true /\ flt (stats_best (g_core g0)) (stats_best (g_core g1)) = true.
Proof.
  unfold ex_grun. intros H. destruct gf as [fi|]; [|discriminate].
  destruct (new_genetic (parallel fi insertion_sort) 1 (repeat pts0 3) (new_parallel 3 3) ex_sched []) as [[g0 r0]|] eqn:E0; [|discriminate]. rewrite !andb_true_iff in H. destruct H as [[[S0 N0] Z0] H].
  destruct (genetic_step (parallel fi insertion_sort) 1 nudge ex_sched [(0, 2)%nat] g0) as [[g1 r1]|] eqn:E1; [|discriminate]. rewrite !andb_true_iff in H. destruct H as [[[[[W1 H1] S1] N1] L1] B1].
  apply Z.eqb_eq in W1, H1.
  assert (R0 : genetic_run fi insertion_sort 1 3 5 3 g0).
  { eapply gr_new; [| | |exact E0| |]; [reflexivity|apply (pts_ok pts0); vm_compute; reflexivity|apply ex_sched_ok|apply sortedb_ok, S0|apply all_pos_ok, N0]. }
  exists fi, g0, g1. rewrite W1, H1. split; [unfold good_size; lia|]. split; [exact R0|]. split; [|split; assumption].
  eapply gr_step; [exact R0|apply nudge_ok|apply ex_sched_ok|exact E1|apply sortedb_ok, S1|apply all_pos_ok, N1].
Qed.

Example C28_genetic_case : exists fi g0 g1, good_size (fi_w fi) (fi_h fi) /\ genetic_run fi insertion_sort 1 3 5 3 g0 /\ genetic_run fi insertion_sort 1 3 5 3 g1 /\
  feq (nth 2 (c_fits (g_core g0)) f1) f0 = true /\ flt (stats_best (g_core g0)) (stats_best (g_core g1)) = true.
Proof. apply (ex_grun_ok grad_fi). vm_compute. reflexivity. Qed.

(** Without SetBase a second call with other points evaluates the old points: the second
    fitness is the one of [pts0] and not the one a new function gives to the new points. *)
Definition pts2 : list npoint := [q8 0 0; q8 8 0; q8 8 8; q8 0 8; q8 5 2].
Theorem C28_no_base_refuted : run_par 3 1 [OCalc 0 pts0 []; OPrepare; OUpdate 0; OCalc 0 pts2 [Mut (q8 3 4) (q8 5 2) 4]] = Some [984008; 984008] /\
  run_par 3 1 [OCalc 0 pts2 []] = Some [984720].
Proof. split; vm_compute; reflexivity. Qed.
Print Assumptions C28_no_base_refuted.

(** C28_genetic needs positive fitnesses: two points give no triangle and the fitness 0, a
    member never evaluated can come first, and a SetBase on it leaves the old points. *)
Definition two (k : Z) : list npoint := [q8 k 0; q8 0 k].
Definition held_points (p : par) (i : nat) : list point :=
  match at_pos p i with Some (_, f) => match tf_tri f with Some d => pm_iter (d_pmap d) | None => [] end | None => [] end.
Definition swapped : mutator := fun i pts => random_mutate f1 (fdiv f1 (f64_of_Z 4)) (fun k => RD f1 f0 f0) pts.
(** The points the triangulation at position 1 holds after one Step, those of the member there, and whether both orders are sorted. *)
Definition zero_run : option (list point * list point * bool) :=
  match grad_fi with None => None | Some fi =>
  match new_genetic (parallel fi insertion_sort) 1 [two 2; two 4; two 8] (new_parallel 3 3) ex_sched [(0, 2)%nat] with None => None | Some (g0, r0) =>
  match genetic_step (parallel fi insertion_sort) 1 swapped ex_sched [] g0 with None => None | Some (g1, r1) =>
  Some (held_points (c_ev (g_core g1)) 1, map (mut_point fi) (nth 1 (members (g_core g1)) []), sortedb (c_fits (g_core g0)) && sortedb (c_fits (g_core g1)) && no_nans r0 && no_nans r1) end end end.
Theorem C28_genetic_zero_refuted : zero_run = Some ([Pt 0 3; Pt 3 0], [Pt 6 0; Pt 0 6], true).
Proof. vm_compute. reflexivity. Qed.
Print Assumptions C28_genetic_zero_refuted.
