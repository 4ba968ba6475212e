(** Theorems on the algorithms: C30, C31, C32, C33, C34, C37, C38. *)
From Coq Require Import ZArith Reals List Bool Arith Lia Permutation Sorted.
From Flocq Require Import IEEE754.BinarySingleNaN.
From Verif Require Import GoNum M_Norm M_Slice M_Algo S_Norm S_Algo L_Norm L_Slice L_Algo L_Algo2 L_Algo3 L_Algo4 L_Algo5.
Import ListNotations.

Section P.
Context {E : Type} (ev : evaluator E).

(** * Histories satisfy the invariants *)
Lemma simple_history_shape cutoff n l c : (cutoff <> 0)%nat -> simple_history ev cutoff n l c -> shape n l c /\ in_square c.
Proof.
  intros H0 H. induction H as [groups e s sw c r Hn Hf Hv Hc Hs|c mu s sw c' r Hh IH Hmu Hv Hc Hs].
  - subst n. apply (new_simple_spec ev groups e s sw c r l Hf Hv) in Hc as (H1 & H2 & _). auto.
  - destruct IH as [I1 I2]. apply (simple_step_spec ev cutoff mu s sw n l c c' r H0 I1 I2 Hmu Hv) in Hc as (H1 & H2 & _). auto.
Qed.
Lemma genetic_history_shape cutoff n l g : (cutoff <> 0)%nat -> genetic_history ev cutoff n l g ->
  shape n l (g_core g) /\ in_square (g_core g) /\ length (g_ben g) = cutoff /\ (cutoff < n)%nat.
Proof.
  intros H0 H. induction H as [groups e s sw g r Hn Hf Hv Hc Hs|g mu s sw g' r Hh IH Hmu Hv Hc Hs].
  - subst n. apply (new_genetic_spec ev cutoff groups e s sw g r l H0 Hf Hv) in Hc as (H1 & H2 & H3 & H4 & _). auto.
  - destruct IH as (I1 & I2 & I3 & I4). destruct g as [c ben]. cbn [g_core g_ben] in *.
    apply (genetic_step_spec ev cutoff mu s sw n l c ben g' r H0 I1 I2 Hmu Hv I3) in Hc as (H1 & H2 & H3 & _). auto.
Qed.

Lemma members_ok n l (c : core E) : shape n l c -> in_square c -> length (members c) = n /\
  forall g, In g (members c) -> length g = l /\ Forall pt_in_unit g.
Proof.
  intros Hs Hq. split; [unfold members; rewrite map_length; apply Hs|]. intros g Hg.
  unfold members in Hg. apply in_map_iff in Hg as (a & <- & Ha).
  assert (In a (c_best c :: c_pop c ++ c_newpop c)) by (right; apply in_or_app; auto).
  split; [apply (sh_points _ _ _ Hs); assumption|apply Hq; assumption].
Qed.

(** * C30 *)
Theorem C30_simple_shape cutoff n l c : (cutoff <> 0)%nat -> simple_history ev cutoff n l c ->
  length (members c) = n /\ (forall g, In g (members c) -> length g = l /\ Forall pt_in_unit g) /\
  length (c_fits c) = n /\ NoDup (c_pop c).
Proof.
  intros H0 H. destruct (simple_history_shape cutoff n l c H0 H) as [Hs Hq]. destruct (members_ok n l c Hs Hq) as [H1 H2].
  split; [exact H1|]. split; [exact H2|]. split; [apply Hs|].
  apply (NoDup_nth _ 0%nat). intros i j Hi Hj. apply (nth_pop_inj n l c i j Hs); rewrite <- (sh_pop _ _ _ Hs); assumption.
Qed.
Theorem C30_genetic_shape cutoff n l g : (cutoff <> 0)%nat -> genetic_history ev cutoff n l g ->
  length (members (g_core g)) = n /\ (forall p, In p (members (g_core g)) -> length p = l /\ Forall pt_in_unit p) /\
  length (c_fits (g_core g)) = n /\ NoDup (c_pop (g_core g)).
Proof.
  intros H0 H. destruct (genetic_history_shape cutoff n l g H0 H) as (Hs & Hq & _). destruct (members_ok n l _ Hs Hq) as [H1 H2].
  split; [exact H1|]. split; [exact H2|]. split; [apply Hs|].
  apply (NoDup_nth _ 0%nat). intros i j Hi Hj. apply (nth_pop_inj n l (g_core g) i j Hs); rewrite <- (sh_pop _ _ _ Hs); assumption.
Qed.

(** * C31 *)
Lemma combine_nth_In {A B} (l : list A) (m : list B) k a b : (k < length l)%nat -> (k < length m)%nat -> In (nth k l a, nth k m b) (combine l m).
Proof.
  revert m k; induction l as [|x t IH]; intros [|y m] [|k]; cbn; try lia; intros Hl Hm; [left; reflexivity|right; apply IH; lia].
Qed.
Lemma In_combine_nth {A B} (l : list A) (m : list B) x y a b : In (x, y) (combine l m) -> exists k, (k < length l)%nat /\ (k < length m)%nat /\ nth k l a = x /\ nth k m b = y.
Proof.
  revert m; induction l as [|u t IH]; intros [|v m]; cbn; try tauto. intros [H|H].
  - inversion H; subst. exists 0%nat. repeat split; lia.
  - destruct (IH m H) as (k & H1 & H2 & H3 & H4). exists (S k). repeat split; [lia|lia|exact H3|exact H4].
Qed.

Lemma simple_evaluated cutoff n l c : (cutoff <> 0)%nat -> simple_history ev cutoff n l c ->
  (0 < n)%nat /\ nth (c_best c) (c_store c) [] = nth 0 (members c) [] /\ c_bestfit c = nth 0 (c_fits c) f0 /\ sorted (c_fits c) /\
  forall k, (k < n)%nat -> evaluated ev (nth k (members c) []) (nth k (c_fits c) f0).
Proof.
  intros H0 H. pose proof (simple_history_shape cutoff n l c H0 H) as [Hs Hq]. pose proof (members_ok n l c Hs Hq) as [Hm _].
  destruct H as [groups e s sw c r Hn Hf Hv Hc Hso|c mu s sw c' r Hh Hmu Hv Hc Hso].
  - subst n. apply (new_simple_spec ev groups e s sw c r l Hf Hv) in Hc as (H1 & H2 & H3 & H4 & H5 & H6 & fs & L & P & R).
    split; [exact H3|]. split; [exact H5|]. split; [exact H6|]. split; [exact Hso|]. intros k Hk.
    assert (Hin : In (nth k (members c) [], nth k (c_fits c) f0) (combine groups fs)).
    { apply (Permutation_in _ P), combine_nth_In; [lia|]. rewrite (sh_fits _ _ _ Hs). exact Hk. }
    apply (In_combine_nth _ _ _ _ [] f0) in Hin as (i & I1 & I2 & I3 & I4). destruct (R i I1) as (_ & e1 & e2 & R2).
    rewrite <- I3, <- I4. exists e1, i, [], e2. exact R2.
  - destruct (simple_history_shape cutoff n l c H0 Hh) as [Hs0 Hq0].
    apply (simple_step_spec ev cutoff mu s sw n l c c' r H0 Hs0 Hq0 Hmu Hv) in Hc as (H1 & H2 & H3 & H4 & H5 & H6 & H7 & H8 & fs & L & P & R).
    split; [exact H6|]. split; [exact H7|]. split; [exact H8|]. split; [exact Hso|]. intros k Hk.
    assert (Hin : In (nth k (members c') [], nth k (c_fits c') f0) (combine (map (tgt mu cutoff c) (seq 0 n)) fs)).
    { apply (Permutation_in _ P), combine_nth_In; [lia|]. rewrite (sh_fits _ _ _ Hs). exact Hk. }
    apply (In_combine_nth _ _ _ _ (tgt mu cutoff c 0) f0) in Hin as (i & I1 & I2 & I3 & I4). rewrite map_length, seq_length in I1.
    destruct (R i I1) as (_ & e1 & e2 & R2). rewrite map_nth, seq_nth in I3 by exact I1. cbn [plus] in I3.
    rewrite <- I3, <- I4. exists e1, i, (tlog mu cutoff c i), e2. exact R2.
Qed.

(** Best() is a member, BestFitness the fitness the evaluator gave it in this
    generation, and no member was given a higher one. *)
Theorem C31_simple_best cutoff n l c : (cutoff <> 0)%nat -> simple_history ev cutoff n l c -> nan_free ev ->
  In (nth (best_slice c) (c_store c) []) (members c) /\
  evaluated ev (nth (best_slice c) (c_store c) []) (stats_best c) /\
  (forall k, (k < n)%nat -> evaluated ev (nth k (members c) []) (nth k (c_fits c) f0) /\ not_above (nth k (c_fits c) f0) (stats_best c)).
Proof.
  intros H0 H Hnan. destruct (simple_evaluated cutoff n l c H0 H) as (Hn & Hb & Hbf & Hso & Hev).
  destruct (C30_simple_shape cutoff n l c H0 H) as (Hm & _ & Hf & _).
  unfold best_slice, stats_best. rewrite Hb, Hbf. split; [apply nth_In; lia|]. split; [apply Hev, Hn|].
  intros k Hk. split; [apply Hev, Hk|]. repeat split; try (eapply Hnan; apply Hev; assumption).
  destruct (Nat.eq_dec k 0) as [->|Hk0]; [apply not_above_refl; eapply Hnan; apply Hev; assumption|].
  apply (Hso 0%nat k). lia.
Qed.

Lemma genetic_evaluated cutoff n l g : (cutoff <> 0)%nat -> genetic_history ev cutoff n l g -> let c := g_core g in
  (cutoff < n)%nat /\ nth (c_best c) (c_store c) [] = nth 0 (members c) [] /\ c_bestfit c = nth 0 (c_fits c) f0 /\ sorted (c_fits c) /\
  (forall k, (k < n)%nat -> evaluated ev (nth k (members c) []) (nth k (c_fits c) f0) \/ nth k (c_fits c) f0 = f0) /\
  (exists k, (k < n)%nat /\ evaluated ev (nth k (members c) []) (nth k (c_fits c) f0)).
Proof.
  intros H0 H. pose proof (genetic_history_shape cutoff n l g H0 H) as (Hs & Hq & _ & Hcn). pose proof (members_ok n l _ Hs Hq) as [Hm _]. cbv zeta.
  destruct H as [groups e s sw g r Hn Hf Hv Hc Hso|g mu s sw g' r Hh Hmu Hv Hc Hso].
  - subst n. apply (new_genetic_spec ev cutoff groups e s sw g r l H0 Hf Hv) in Hc as (H1 & H2 & H3 & H4 & H5 & H6 & H7 & fs & L & P & R1 & R2).
    split; [exact Hcn|]. split; [exact H6|]. split; [exact H7|]. split; [exact Hso|]. split.
    + intros k Hk. assert (Hin : In (nth k (members (g_core g)) [], nth k (c_fits (g_core g)) f0) (combine groups fs)).
      { apply (Permutation_in _ P), combine_nth_In; [lia|]. rewrite (sh_fits _ _ _ Hs). exact Hk. }
      apply (In_combine_nth _ _ _ _ [] f0) in Hin as (i & I1 & I2 & I3 & I4).
      destruct (Nat.lt_ge_cases i (length groups - cutoff)) as [Hi|Hi]; [left|right; rewrite <- I4; apply R2, Hi].
      destruct (R1 i Hi) as (e1 & e2 & R). rewrite <- I3, <- I4. exists e1, i, [], e2. exact R.
    + assert (Hin : In (nth 0 groups [], nth 0 fs f0) (combine (members (g_core g)) (c_fits (g_core g)))).
      { apply (Permutation_in _ (Permutation_sym P)), combine_nth_In; lia. }
      apply (In_combine_nth _ _ _ _ [] f0) in Hin as (i & I1 & I2 & I3 & I4).
      destruct (R1 0%nat ltac:(lia)) as (e1 & e2 & R). exists i. split; [lia|]. rewrite I3, I4. exists e1, 0%nat, [], e2. exact R.
  - destruct (genetic_history_shape cutoff n l g H0 Hh) as (Hs0 & Hq0 & Hb0 & _). destruct g as [c ben]. cbn [g_core g_ben] in *.
    apply (genetic_step_spec ev cutoff mu s sw n l c ben g' r H0 Hs0 Hq0 Hmu Hv Hb0) in Hc
      as (H1 & H2 & H3 & H4 & H5 & H6 & H7 & c3 & bet & fs & Hg & P).
    destruct (members_ok n l c3 (ga_shape _ _ _ _ _ _ _ _ _ Hg) (ga_square _ _ _ _ _ _ _ _ _ Hg)) as [Hm3 _].
    pose proof (ga_len _ _ _ _ _ _ _ _ _ Hg) as Hl3.
    split; [exact Hcn|]. split; [exact H6|]. split; [exact H7|]. split; [exact Hso|]. split.
    + intros k Hk. assert (Hin : In (nth k (members (g_core g')) [], nth k (c_fits (g_core g')) f0) (combine (members c3) fs)).
      { apply (Permutation_in _ P), combine_nth_In; [lia|]. rewrite (sh_fits _ _ _ Hs). exact Hk. }
      apply (In_combine_nth _ _ _ _ [] f0) in Hin as (i & I1 & I2 & I3 & I4). rewrite <- I3, <- I4.
      destruct (Nat.lt_ge_cases i (n - cutoff)) as [Hi|Hi].
      * left. destruct (ga_plain _ _ _ _ _ _ _ _ _ Hg i Hi) as [Q (e1 & e2 & R)]. rewrite Q. exists e1, i, (tlog mu cutoff c i), e2. exact R.
      * destruct (ga_comb _ _ _ _ _ _ _ _ _ Hg i) as [[Q _]|(Q & _ & e1 & e2 & lg & R)]; [lia|right; exact Q|left; exists e1, i, lg, e2; exact R].
    + assert (Hin : In (nth 0 (members c3) [], nth 0 fs f0) (combine (members (g_core g')) (c_fits (g_core g')))).
      { apply (Permutation_in _ (Permutation_sym P)), combine_nth_In; lia. }
      apply (In_combine_nth _ _ _ _ [] f0) in Hin as (i & I1 & I2 & I3 & I4).
      destruct (ga_plain _ _ _ _ _ _ _ _ _ Hg 0%nat ltac:(lia)) as [Q (e1 & e2 & R)]. exists i. split; [lia|]. rewrite I3, I4, Q.
      exists e1, 0%nat, (tlog mu cutoff c 0), e2. exact R.
Qed.

(** For modifiedGenetic, whose unused members carry the fitness 0, positive fitnesses are needed. *)
Theorem C31_genetic_best cutoff n l g : (cutoff <> 0)%nat -> genetic_history ev cutoff n l g -> positive ev -> let c := g_core g in
  In (nth (best_slice c) (c_store c) []) (members c) /\
  evaluated ev (nth (best_slice c) (c_store c) []) (stats_best c) /\
  (forall k, (k < n)%nat -> (evaluated ev (nth k (members c) []) (nth k (c_fits c) f0) \/ nth k (c_fits c) f0 = f0) /\ not_above (nth k (c_fits c) f0) (stats_best c)).
Proof.
  intros H0 H Hpos. cbv zeta. destruct (genetic_evaluated cutoff n l g H0 H) as (Hcn & Hb & Hbf & Hso & Hev & (k0 & Hk0 & Hev0)).
  destruct (C30_genetic_shape cutoff n l g H0 H) as (Hm & _ & Hf & _).
  unfold best_slice, stats_best. rewrite Hb, Hbf. split; [apply nth_In; lia|].
  assert (Hnan : forall k, (k < n)%nat -> is_nan (nth k (c_fits (g_core g)) f0) = false).
  { intros k Hk. destruct (Hev k Hk) as [He|He]; [apply (flt_nan _ _ (Hpos _ _ He))|rewrite He; reflexivity]. }
  assert (Htop : forall k, (k < n)%nat -> not_above (nth k (c_fits (g_core g)) f0) (nth 0 (c_fits (g_core g)) f0)).
  { intros k Hk. destruct (Nat.eq_dec k 0) as [->|Hk1]; [apply not_above_refl, Hnan, Hk|].
    repeat split; [apply Hnan, Hk|apply Hnan; lia|]. apply (Hso 0%nat k). lia. }
  split; [|intros k Hk; split; [apply Hev, Hk|apply Htop, Hk]].
  destruct (Hev 0%nat ltac:(lia)) as [He|He]; [exact He|]. exfalso.
  destruct (Htop k0 Hk0) as (_ & _ & Hc). rewrite He, (Hpos _ _ Hev0) in Hc. discriminate.
Qed.

(** * C32, C33 *)
Lemma best_kept (c' : core E) n l pairs x f : shape n l c' -> sorted (c_fits c') -> c_bestfit c' = nth 0 (c_fits c') f0 -> (0 < n)%nat ->
  length (members c') = n ->
  Permutation (combine (members c') (c_fits c')) pairs -> In (x, f) pairs -> is_nan f = false -> is_nan (c_bestfit c') = false ->
  not_above f (c_bestfit c').
Proof.
  intros Hs Hso Hb Hn Hm P Hin Hf Hbn. apply (Permutation_in _ (Permutation_sym P)) in Hin.
  apply (In_combine_nth _ _ _ _ [] f0) in Hin as (k & K1 & K2 & K3 & K4). rewrite Hb in *. rewrite <- K4 in *.
  destruct (Nat.eq_dec k 0) as [->|Hk]; [apply not_above_refl, Hf|]. repeat split; try assumption. apply (Hso 0%nat k). lia.
Qed.

(** The best fitness does not drop, as soon as the unchanged best member is given its old fitness again. *)
Theorem C32_simple_kept cutoff n l c mu s sw c' r : (cutoff <> 0)%nat -> simple_history ev cutoff n l c -> mutator_ok mu -> valid_schedule n s ->
  simple_step ev cutoff mu s sw c = Some (c', r) -> sorted (c_fits c') -> nan_free ev ->
  result r 0 = Some (stats_best c) -> not_above (stats_best c) (stats_best c').
Proof.
  intros H0 Hh Hmu Hv Hc Hso Hnan Hr.
  pose proof (sh_step ev cutoff n l c mu s sw c' r Hh Hmu Hv Hc Hso) as Hh'.
  destruct (simple_history_shape cutoff n l c H0 Hh) as [Hs0 Hq0]. destruct (simple_history_shape cutoff n l c' H0 Hh') as [Hs1 Hq1].
  destruct (simple_evaluated cutoff n l c' H0 Hh') as (_ & _ & _ & _ & Hev).
  apply (simple_step_spec ev cutoff mu s sw n l c c' r H0 Hs0 Hq0 Hmu Hv) in Hc as (H1 & H2 & H3 & H4 & H5 & H6 & H7 & H8 & fs & L & P & R).
  destruct (R 0%nat H6) as (R1 & e1 & e2 & R2). rewrite Hr in R1. inversion R1 as [R3]. unfold stats_best in *.
  apply (best_kept c' n l _ (tgt mu cutoff c 0) (c_bestfit c) Hs1 Hso H8 H6 (proj1 (members_ok _ _ _ Hs1 Hq1)) P).
  - rewrite R3. replace (tgt mu cutoff c 0) with (nth 0 (map (tgt mu cutoff c) (seq 0 n)) (tgt mu cutoff c 0)) by (destruct n; [lia|reflexivity]).
    apply combine_nth_In; rewrite ?map_length, ?seq_length; lia.
  - rewrite R3. eapply Hnan. exists e1, 0%nat, (tlog mu cutoff c 0), e2. exact R2.
  - rewrite H8. eapply Hnan. apply Hev. exact H6.
Qed.

Theorem C32_simple_monotone cutoff n l phi c mu s sw c' r : (cutoff <> 0)%nat -> simple_history ev cutoff n l c -> mutator_ok mu -> valid_schedule n s ->
  simple_step ev cutoff mu s sw c = Some (c', r) -> sorted (c_fits c') -> nan_free ev -> functional ev phi ->
  not_above (stats_best c) (stats_best c').
Proof.
  intros H0 Hh Hmu Hv Hc Hso Hnan Hphi. apply (C32_simple_kept cutoff n l c mu s sw c' r H0 Hh Hmu Hv Hc Hso Hnan).
  destruct (simple_history_shape cutoff n l c H0 Hh) as [Hs0 Hq0].
  destruct (simple_evaluated cutoff n l c H0 Hh) as (Hn & _ & Hb & _ & Hev).
  apply (simple_step_spec ev cutoff mu s sw n l c c' r H0 Hs0 Hq0 Hmu Hv) in Hc as (_ & _ & _ & _ & _ & _ & _ & _ & fs & L & P & R).
  destruct (R 0%nat Hn) as (R1 & e1 & e2 & R2). rewrite R1. f_equal. unfold stats_best. rewrite Hb, (Hphi _ _ (Hev 0%nat Hn)).
  rewrite (Hphi _ _ (ex_intro _ e1 (ex_intro _ 0%nat (ex_intro _ _ (ex_intro _ e2 R2))))). f_equal.
  unfold tgt. replace (0 <? cutoff)%nat with true by (symmetry; apply Nat.ltb_lt; lia).
  rewrite members_nth by (rewrite (sh_pop _ _ _ Hs0); exact Hn). reflexivity.
Qed.

Theorem C33_genetic_monotone cutoff n l phi g mu s sw g' r : (cutoff <> 0)%nat -> genetic_history ev cutoff n l g -> mutator_ok mu ->
  valid_schedule (n - cutoff) s -> genetic_step ev cutoff mu s sw g = Some (g', r) -> sorted (c_fits (g_core g')) ->
  positive ev -> functional ev phi -> not_above (stats_best (g_core g)) (stats_best (g_core g')).
Proof.
  intros H0 Hh Hmu Hv Hc Hso Hpos Hphi.
  pose proof (gh_step ev cutoff n l g mu s sw g' r Hh Hmu Hv Hc Hso) as Hh'.
  destruct (genetic_history_shape cutoff n l g H0 Hh) as (Hs0 & Hq0 & Hb0 & Hcn).
  destruct (genetic_history_shape cutoff n l g' H0 Hh') as (Hs1 & Hq1 & _ & _).
  destruct (C31_genetic_best cutoff n l g H0 Hh Hpos) as (_ & He & _).
  destruct (C31_genetic_best cutoff n l g' H0 Hh' Hpos) as (_ & He' & _).
  destruct (genetic_evaluated cutoff n l g H0 Hh) as (_ & Hbest & Hb & _).
  destruct g as [c ben]. cbn [g_core g_ben] in *. unfold best_slice, stats_best in *. rewrite Hbest in He.
  apply (genetic_step_spec ev cutoff mu s sw n l c ben g' r H0 Hs0 Hq0 Hmu Hv Hb0) in Hc
      as (H1 & H2 & H3 & H4 & H5 & H6 & H7 & c3 & bet & fs & Hg & P).
  destruct (ga_plain _ _ _ _ _ _ _ _ _ Hg 0%nat ltac:(lia)) as [Q (e1 & e2 & R)].
  assert (Hf : nth 0 fs f0 = c_bestfit c).
  { rewrite (Hphi _ _ He). rewrite (Hphi _ _ (ex_intro _ e1 (ex_intro _ 0%nat (ex_intro _ _ (ex_intro _ e2 R))))). f_equal.
    unfold tgt. replace (0 <? cutoff)%nat with true by (symmetry; apply Nat.ltb_lt; lia).
    rewrite members_nth by (rewrite (sh_pop _ _ _ Hs0); lia). reflexivity. }
  apply (best_kept (g_core g') n l _ (nth 0 (members c3) []) (c_bestfit c) Hs1 Hso H7 ltac:(lia) (proj1 (members_ok _ _ _ Hs1 Hq1)) P).
  - rewrite <- Hf. apply combine_nth_In; [rewrite (proj1 (members_ok _ _ _ (ga_shape _ _ _ _ _ _ _ _ _ Hg) (ga_square _ _ _ _ _ _ _ _ _ Hg)))|rewrite (ga_len _ _ _ _ _ _ _ _ _ Hg)]; lia.
  - apply (flt_nan _ _ (Hpos _ _ He)).
  - apply (flt_nan _ _ (Hpos _ _ He')).
Qed.

(** * C37 *)
Theorem C37_simple_bases cutoff n l c mu s sw c' r : (cutoff <> 0)%nat -> simple_history ev cutoff n l c -> mutator_ok mu -> valid_schedule n s ->
  simple_step ev cutoff mu s sw c = Some (c', r) -> sorted (c_fits c') ->
  forall k, (k < cutoff)%nat -> (k < n)%nat /\ In (nth k (members c) []) (members c').
Proof.
  intros H0 Hh Hmu Hv Hc Hso k Hk.
  destruct (simple_history_shape cutoff n l c H0 Hh) as [Hs0 Hq0].
  apply (simple_step_spec ev cutoff mu s sw n l c c' r H0 Hs0 Hq0 Hmu Hv) in Hc as (H1 & H2 & H3 & H4 & H5 & H6 & H7 & H8 & fs & L & P & R).
  split; [lia|].
  assert (Hin : In (tgt mu cutoff c k, nth k fs f0) (combine (members c') (c_fits c'))).
  { apply (Permutation_in _ (Permutation_sym P)).
    replace (tgt mu cutoff c k) with (nth k (map (tgt mu cutoff c) (seq 0 n)) (tgt mu cutoff c 0)) by (rewrite map_nth, seq_nth by lia; reflexivity).
    apply combine_nth_In; rewrite ?map_length, ?seq_length; lia. }
  apply in_combine_l in Hin. unfold tgt in Hin. rewrite (proj2 (Nat.ltb_lt _ _) Hk) in Hin.
  rewrite members_nth by (rewrite (sh_pop _ _ _ Hs0); lia). exact Hin.
Qed.
Theorem C37_genetic_bases cutoff n l g mu s sw g' r : (cutoff <> 0)%nat -> genetic_history ev cutoff n l g -> mutator_ok mu ->
  valid_schedule (n - cutoff) s -> genetic_step ev cutoff mu s sw g = Some (g', r) -> sorted (c_fits (g_core g')) ->
  forall k, (k < cutoff)%nat -> (k < n)%nat /\ In (nth k (members (g_core g)) []) (members (g_core g')).
Proof.
  intros H0 Hh Hmu Hv Hc Hso k Hk.
  destruct (genetic_history_shape cutoff n l g H0 Hh) as (Hs0 & Hq0 & Hb0 & Hcn). destruct g as [c ben]. cbn [g_core g_ben] in *.
  apply (genetic_step_spec ev cutoff mu s sw n l c ben g' r H0 Hs0 Hq0 Hmu Hv Hb0) in Hc
      as (H1 & H2 & H3 & H4 & H5 & H6 & H7 & c3 & bet & fs & Hg & P).
  split; [lia|].
  assert (Hin : In (nth k (members c3) [], nth k fs f0) (combine (members (g_core g')) (c_fits (g_core g')))).
  { apply (Permutation_in _ (Permutation_sym P)), combine_nth_In;
      [rewrite (proj1 (members_ok _ _ _ (ga_shape _ _ _ _ _ _ _ _ _ Hg) (ga_square _ _ _ _ _ _ _ _ _ Hg)))|rewrite (ga_len _ _ _ _ _ _ _ _ _ Hg)]; lia. }
  apply in_combine_l in Hin. rewrite (ga_bases _ _ _ _ _ _ _ _ _ Hg k Hk) in Hin. unfold tgt in Hin. rewrite (proj2 (Nat.ltb_lt _ _) Hk) in Hin.
  rewrite members_nth by (rewrite (sh_pop _ _ _ Hs0); lia). exact Hin.
Qed.

(** * C38: the slice a caller got from Best() before a Step reads as the new best afterwards. *)
Theorem C38_simple_live cutoff n l c mu s sw c' r : (cutoff <> 0)%nat -> simple_history ev cutoff n l c -> mutator_ok mu -> valid_schedule n s ->
  simple_step ev cutoff mu s sw c = Some (c', r) -> sorted (c_fits c') ->
  let held := best_slice c in
  best_slice c' = held /\ nth held (c_store c) [] = nth 0 (members c) [] /\ nth held (c_store c') [] = nth 0 (members c') [] /\
  ~ In held (c_pop c) /\ ~ In held (c_pop c').
Proof.
  intros H0 Hh Hmu Hv Hc Hso.
  pose proof (sh_step ev cutoff n l c mu s sw c' r Hh Hmu Hv Hc Hso) as Hh'.
  destruct (simple_history_shape cutoff n l c H0 Hh) as [Hs0 Hq0]. destruct (simple_history_shape cutoff n l c' H0 Hh') as [Hs1 Hq1].
  destruct (simple_evaluated cutoff n l c H0 Hh) as (_ & Hb & _). destruct (simple_evaluated cutoff n l c' H0 Hh') as (_ & Hb' & _).
  apply (simple_step_spec ev cutoff mu s sw n l c c' r H0 Hs0 Hq0 Hmu Hv) in Hc as (H1 & H2 & H3 & _).
  assert (Hd : forall d : core E, shape n l d -> ~ In (c_best d) (c_pop d)).
  { intros d Hd Hin. pose proof (sh_distinct _ _ _ Hd) as ND. inversion ND as [|? ? Hx _]; subst. apply Hx, in_or_app. auto. }
  unfold best_slice. cbv zeta. split; [exact H3|]. split; [exact Hb|]. split; [rewrite <- H3; exact Hb'|].
  split; [apply Hd, Hs0|rewrite <- H3; apply Hd, Hs1].
Qed.
Theorem C38_genetic_live cutoff n l g mu s sw g' r : (cutoff <> 0)%nat -> genetic_history ev cutoff n l g -> mutator_ok mu ->
  valid_schedule (n - cutoff) s -> genetic_step ev cutoff mu s sw g = Some (g', r) -> sorted (c_fits (g_core g')) ->
  let c := g_core g in let c' := g_core g' in let held := best_slice c in
  best_slice c' = held /\ nth held (c_store c) [] = nth 0 (members c) [] /\ nth held (c_store c') [] = nth 0 (members c') [] /\
  ~ In held (c_pop c) /\ ~ In held (c_pop c').
Proof.
  intros H0 Hh Hmu Hv Hc Hso. cbv zeta.
  pose proof (gh_step ev cutoff n l g mu s sw g' r Hh Hmu Hv Hc Hso) as Hh'.
  destruct (genetic_history_shape cutoff n l g H0 Hh) as (Hs0 & Hq0 & Hb0 & Hcn).
  destruct (genetic_history_shape cutoff n l g' H0 Hh') as (Hs1 & Hq1 & _ & _).
  destruct (genetic_evaluated cutoff n l g H0 Hh) as (_ & Hb & _). destruct (genetic_evaluated cutoff n l g' H0 Hh') as (_ & Hb' & _).
  destruct g as [c ben]. cbn [g_core g_ben] in *.
  apply (genetic_step_spec ev cutoff mu s sw n l c ben g' r H0 Hs0 Hq0 Hmu Hv Hb0) in Hc as (H1 & H2 & H3 & H4 & _).
  assert (Hd : forall d : core E, shape n l d -> ~ In (c_best d) (c_pop d)).
  { intros d Hd Hin. pose proof (sh_distinct _ _ _ Hd) as ND. inversion ND as [|? ? Hx _]; subst. apply Hx, in_or_app. auto. }
  unfold best_slice in *. split; [exact H4|]. split; [exact Hb|]. split; [rewrite <- H4; exact Hb'|].
  split; [apply Hd, Hs0|rewrite <- H4; apply Hd, Hs1].
Qed.
End P.
