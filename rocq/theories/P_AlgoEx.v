(** Instances, concrete runs and limits for the theorems about the algorithms. *)
From Coq Require Import ZArith Reals List Bool Arith Lia Permutation Sorting.Sorted.
From Flocq Require Import Core IEEE754.BinarySingleNaN.
From Verif Require Import GoNum FloatLemmas M_Norm M_Slice M_Algo S_Norm S_Algo L_Norm L_Algo L_Algo2 L_Algo3 L_Algo4 L_Algo5 P_Norm M_Chan P_Chan P_Algo P_Combine.
Import ListNotations.

(** * The mutation methods of the library satisfy the contract *)
Theorem C30_gaussian_ok rate amount (d : nat -> nat -> gdraw) : is_finite amount = true ->
  (forall i k, is_finite (gd_x (d i k)) = true /\ is_finite (gd_y (d i k)) = true) ->
  mutator_ok (fun i pts => gaussian_mutate rate amount (d i) pts).
Proof.
  intros Ha Hd i pts Hp. split; [apply C03_gaussian_log|]. apply C04_gaussian_unit; auto.
Qed.
Theorem C30_random_ok rate amount (d : nat -> nat -> rdraw) : is_finite amount = true ->
  (forall i k, draw01 (rd_x (d i k)) /\ draw01 (rd_y (d i k))) ->
  mutator_ok (fun i pts => random_mutate rate amount (d i) pts).
Proof.
  intros Ha Hd i pts Hp. split; [apply C03_random_log|]. apply C04_random_unit; auto.
Qed.

(** * Limits *)
Section Limits.
Context {E : Type} (ev : evaluator E).
(** With cutoff 0 newGeneration of a non-empty population does not return, however
    long one waits. *)
Theorem C30_cutoff_zero_hangs fuel mu lim (c : core E) : (0 < lim)%nat -> outer_loop ev fuel mu 0 0 lim c = None.
Proof.
  intros H. induction fuel as [|f IH]; cbn [outer_loop inner_loop]; rewrite (proj2 (Nat.ltb_lt 0 lim) H); [reflexivity|exact IH].
Qed.
End Limits.

(** * A concrete run of both algorithms
    Fitness: the x coordinate of the first point if positive, else 1/2. *)
Definition toy_fit (pts : list npoint) : f64 := match pts with p :: _ => if flt f0 (nx p) then nx p else fhalf | [] => fhalf end.
Definition toy : evaluator unit := Ev (fun _ _ pts _ => Some (tt, toy_fit pts)) (fun _ _ => Some tt) (fun _ => Some tt) (fun _ _ _ => Some tt) (fun _ _ _ => Some tt).
Lemma toy_functional : functional toy toy_fit.
Proof. intros pts f (e & i & log & e' & H). cbn in H. congruence. Qed.
Lemma toy_positive : positive toy.
Proof.
  intros pts f H. rewrite (toy_functional pts f H). unfold toy_fit. destruct pts as [|p t]; [reflexivity|].
  destruct (flt f0 (nx p)) eqn:Ep; [exact Ep|reflexivity].
Qed.
Lemma toy_nan_free : nan_free toy.
Proof. intros pts f H. apply (flt_nan _ _ (toy_positive pts f H)). Qed.

Fixpoint sortedb (l : list f64) : bool := match l with [] => true | x :: t => forallb (fun y => negb (flt x y)) t && sortedb t end.
Lemma sortedb_ok l : sortedb l = true -> sorted l.
Proof.
  induction l as [|x t IH]; cbn [sortedb]; intros H i j Hij; [cbn in Hij; lia|]. apply andb_true_iff in H as [H1 H2].
  unfold less. destruct j as [|j]; [lia|]. cbn [length] in Hij. destruct i as [|i]; cbn [nth].
  - rewrite forallb_forall in H1. assert (Hj : In (nth j t f0) t) by (apply nth_In; lia). specialize (H1 _ Hj). destruct (flt x (nth j t f0)); [discriminate|reflexivity].
  - apply (IH H2 i j). lia.
Qed.

(** The interleaving of C35_case. *)
Definition ex_sched : list act := [Calc 1; Prep; Calc 0; Recv 1; Recv 0].
Lemma ex_sched_ok : valid_schedule 2 ex_sched.
Proof. apply (C35_all_received 2 2 10 _ C35_case eq_refl). Qed.

Lemma B2R_bounds v : is_finite v = true -> fle f0 v = true -> fle v f1 = true -> (0 <= B2R v <= 1)%R.
Proof.
  intros Hf H0 H1. rewrite fle_R in H0, H1 by (exact Hf || reflexivity).
  destruct (Rle_bool_spec (R64 f0) (R64 v)) as [H0'|]; [|discriminate]. destruct (Rle_bool_spec (R64 v) (R64 f1)) as [H1'|]; [|discriminate].
  rewrite f0_R in H0'. rewrite f1_R in H1'. split; assumption.
Qed.
Lemma draw01_bool v : is_finite v = true -> fle f0 v = true -> flt v f1 = true -> draw01 v.
Proof.
  intros Hf H0 H1. split; [exact Hf|]. rewrite fle_R in H0 by (exact Hf || reflexivity). rewrite flt_R in H1 by (exact Hf || reflexivity).
  destruct (Rle_bool_spec (R64 f0) (R64 v)) as [H0'|]; [|discriminate]. destruct (Rlt_bool_spec (R64 v) (R64 f1)) as [H1'|]; [|discriminate].
  rewrite f0_R in H0'. rewrite f1_R in H1'. split; assumption.
Qed.
Lemma unit_bool p : is_finite (nx p) = true /\ is_finite (ny p) = true -> fle f0 (nx p) && fle (nx p) f1 && fle f0 (ny p) && fle (ny p) f1 = true -> pt_in_unit p.
Proof.
  intros [F1 F2] H. repeat rewrite andb_true_iff in H. destruct H as [[[H1 H2] H3] H4].
  split; (split; [assumption|apply B2R_bounds; assumption]).
Qed.

(** Every point is moved by (1/2 * (3/4 - 1/2), ...): [random_mutate] with fixed draws. *)
Definition ex_mu : mutator := fun i pts => random_mutate f1 fhalf (fun _ => RD fhalf (f64_dy 3 (-2)) f0) pts.
Lemma ex_mu_ok : mutator_ok ex_mu.
Proof.
  apply (C30_random_ok f1 fhalf (fun _ _ => RD fhalf (f64_dy 3 (-2)) f0)); [reflexivity|]. intros _ _. cbn [rd_x rd_y].
  split; apply draw01_bool; vm_compute; reflexivity.
Qed.

Definition ex_groups (k : nat) : list (list npoint) := repeat [NP (f64_dy 1 (-2)) fhalf; NP fhalf f1] k.
Lemma ex_groups_ok k : Forall (fun g => length g = 2%nat /\ Forall pt_in_unit g) (ex_groups k).
Proof.
  apply Forall_forall. intros g Hg. apply repeat_spec in Hg. subst g. split; [reflexivity|].
  constructor; [|constructor; [|constructor]]; apply unit_bool; try split; vm_compute; reflexivity.
Qed.

(** simple with two members and cutoff 1, two generations: the second member is a
    mutated copy, is fitter and is moved to the front each time. *)
Definition ex_simple : bool :=
  match new_simple toy (ex_groups 2) tt ex_sched [] with
  | Some (c0, _) =>
      sortedb (c_fits c0) &&
      match simple_step toy 1 ex_mu ex_sched [(0, 1)%nat] c0 with
      | Some (c1, _) =>
          sortedb (c_fits c1) && flt (stats_best c0) (stats_best c1) && (stats_gen c1 =? 1)%Z &&
          match simple_step toy 1 ex_mu ex_sched [(0, 1)%nat] c1 with
          | Some (c2, _) => sortedb (c_fits c2) && flt (stats_best c1) (stats_best c2) && (stats_gen c2 =? 2)%Z
          | None => false end
      | None => false end
  | None => false end.
Example C32_simple_run : exists c0 c1 c2, simple_history toy 1 2 2 c0 /\ simple_history toy 1 2 2 c1 /\ simple_history toy 1 2 2 c2 /\
  flt (stats_best c0) (stats_best c1) = true /\ flt (stats_best c1) (stats_best c2) = true /\ stats_gen c2 = 2%Z.
Proof.
  assert (H : ex_simple = true) by (vm_compute; reflexivity). unfold ex_simple in H.
  destruct (new_simple toy (ex_groups 2) tt ex_sched []) as [[c0 r0]|] eqn:E0; [|discriminate].
  apply andb_true_iff in H as [S0 H].
  destruct (simple_step toy 1 ex_mu ex_sched [(0, 1)%nat] c0) as [[c1 r1]|] eqn:E1; [|discriminate].
  rewrite !andb_true_iff in H. destruct H as [[[S1 B1] G1] H].
  destruct (simple_step toy 1 ex_mu ex_sched [(0, 1)%nat] c1) as [[c2 r2]|] eqn:E2; [|discriminate].
  rewrite !andb_true_iff in H. destruct H as [[S2 B2] G2].
  assert (H0 : simple_history toy 1 2 2 c0).
  { apply (sh_init toy 1 2 2 (ex_groups 2) tt ex_sched [] c0 r0); [reflexivity|apply ex_groups_ok|apply ex_sched_ok|exact E0|apply sortedb_ok, S0]. }
  assert (H1 : simple_history toy 1 2 2 c1).
  { apply (sh_step toy 1 2 2 c0 ex_mu ex_sched [(0, 1)%nat] c1 r1); [exact H0|apply ex_mu_ok|apply ex_sched_ok|exact E1|apply sortedb_ok, S1]. }
  exists c0, c1, c2. split; [exact H0|]. split; [exact H1|]. split.
  { apply (sh_step toy 1 2 2 c1 ex_mu ex_sched [(0, 1)%nat] c2 r2); [exact H1|apply ex_mu_ok|apply ex_sched_ok|exact E2|apply sortedb_ok, S2]. }
  split; [exact B1|]. split; [exact B2|]. apply Z.eqb_eq, G2.
Qed.

(** modifiedGenetic with three members and cutoff 1: member 1 is mutated and fitter,
    member 2 collects its mutations. *)
Definition ex_genetic : bool :=
  match new_genetic toy 1 (ex_groups 3) tt ex_sched [] with
  | Some (g0, _) =>
      sortedb (c_fits (g_core g0)) && fle (nth 2 (c_fits (g_core g0)) f1) f0 &&
      match genetic_step toy 1 ex_mu ex_sched [(0, 2)%nat] g0 with
      | Some (g1, r1) =>
          sortedb (c_fits (g_core g1)) && flt (stats_best (g_core g0)) (stats_best (g_core g1)) && (stats_gen (g_core g1) =? 1)%Z &&
          (length r1 =? 3)%nat && (length (nth 0 (g_ben g1) []) =? 2)%nat
      | None => false end
  | None => false end.
Example C33_genetic_run : exists g0 g1 r1, genetic_history toy 1 3 2 g0 /\ genetic_history toy 1 3 2 g1 /\
  genetic_step toy 1 ex_mu ex_sched [(0, 2)%nat] g0 = Some (g1, r1) /\
  flt (stats_best (g_core g0)) (stats_best (g_core g1)) = true /\ length (nth 0 (g_ben g1) []) = 2%nat.
Proof.
  assert (H : ex_genetic = true) by (vm_compute; reflexivity). unfold ex_genetic in H.
  destruct (new_genetic toy 1 (ex_groups 3) tt ex_sched []) as [[g0 r0]|] eqn:E0; [|discriminate].
  rewrite !andb_true_iff in H. destruct H as [[S0 Z0] H].
  destruct (genetic_step toy 1 ex_mu ex_sched [(0, 2)%nat] g0) as [[g1 r1]|] eqn:E1; [|discriminate].
  rewrite !andb_true_iff in H. destruct H as [[[[S1 B1] G1] L1] L2].
  assert (H0 : genetic_history toy 1 3 2 g0).
  { apply (gh_init toy 1 3 2 (ex_groups 3) tt ex_sched [] g0 r0); [reflexivity|apply ex_groups_ok|apply ex_sched_ok|exact E0|apply sortedb_ok, S0]. }
  exists g0, g1, r1. split; [exact H0|]. split.
  { apply (gh_step toy 1 3 2 g0 ex_mu ex_sched [(0, 2)%nat] g1 r1); [exact H0|apply ex_mu_ok|apply ex_sched_ok|exact E1|apply sortedb_ok, S1]. }
  split; [exact E1|]. split; [exact B1|]. apply Nat.eqb_eq, L2.
Qed.

(** With fitnesses below 0 the modified genetic algorithm puts a member in front that
    it has never evaluated: its fitness field is still 0. *)
Definition minus : evaluator unit := Ev (fun _ _ _ _ => Some (tt, f64_dy (-1) 0)) (fun _ _ => Some tt) (fun _ => Some tt) (fun _ _ _ => Some tt) (fun _ _ _ => Some tt).
Theorem C31_genetic_negative_refuted : exists g, genetic_history minus 1 3 2 g /\ nan_free minus /\
  ~ evaluated minus (nth (best_slice (g_core g)) (c_store (g_core g)) []) (stats_best (g_core g)).
Proof.
  assert (H : match new_genetic minus 1 (ex_groups 3) tt ex_sched [(0, 2)%nat] with
              | Some (g, _) => sortedb (c_fits (g_core g)) && fle f0 (stats_best (g_core g)) | None => false end = true) by (vm_compute; reflexivity).
  destruct (new_genetic minus 1 (ex_groups 3) tt ex_sched [(0, 2)%nat]) as [[g r]|] eqn:E0; [|discriminate].
  apply andb_true_iff in H as [S0 B0]. exists g. split; [|split].
  - apply (gh_init minus 1 3 2 (ex_groups 3) tt ex_sched [(0, 2)%nat] g r); [reflexivity|apply ex_groups_ok|apply ex_sched_ok|exact E0|apply sortedb_ok, S0].
  - intros pts f (e & i & log & e' & Hf). cbn [minus ev_calc] in Hf. apply (f_equal (fun o => match o with Some ef => snd ef | None => f0 end)) in Hf. cbn [snd] in Hf. subst f. reflexivity.
  - intros (e & i & log & e' & Hf). cbn [minus ev_calc] in Hf. apply (f_equal (fun o => match o with Some ef => snd ef | None => f0 end)) in Hf. cbn [snd] in Hf. rewrite <- Hf in B0.
    vm_compute in B0. discriminate.
Qed.

Print Assumptions C30_gaussian_ok.
Print Assumptions C30_random_ok.
Print Assumptions C30_simple_shape.
Print Assumptions C30_genetic_shape.
Print Assumptions C30_cutoff_zero_hangs.
Print Assumptions C31_simple_best.
Print Assumptions C31_genetic_best.
Print Assumptions C31_genetic_negative_refuted.
Print Assumptions C32_simple_kept.
Print Assumptions C32_simple_monotone.
Print Assumptions C33_genetic_monotone.
Print Assumptions C34_genetic_combined.
Print Assumptions C34_schedule_independent.
Print Assumptions C37_simple_bases.
Print Assumptions C37_genetic_bases.
Print Assumptions C38_simple_live.
Print Assumptions C38_genetic_live.
