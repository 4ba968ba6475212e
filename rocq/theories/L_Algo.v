(** Lemmas on the algorithms. *)
From Coq Require Import ZArith Reals List Bool Arith Lia.
From Flocq Require Import IEEE754.BinarySingleNaN.
From Verif Require Import GoNum M_Norm M_Slice M_Algo S_Norm S_Algo L_Norm L_Slice.
Import ListNotations.

Lemma nth_set_nth {A} i (a d : A) l j : nth j (set_nth i a l) d = if (i =? j)%nat && (i <? length l)%nat then a else nth j l d.
Proof.
  revert i j; induction l as [|x t IH]; intros i j.
  - destruct i, j; reflexivity || (cbn; rewrite ?andb_false_r; reflexivity).
  - destruct i, j; cbn; try reflexivity. rewrite IH. reflexivity.
Qed.

Lemma put_inv {A} i (v : A) l l' : put i v l = Some l' -> (i < length l)%nat /\ l' = set_nth i v l.
Proof. unfold put. destruct (Nat.ltb_spec i (length l)); intros H'; inversion H'; auto. Qed.

Lemma In_firstn_nth {A} (d : A) a i l : In a (firstn i l) <-> exists k, (k < i)%nat /\ (k < length l)%nat /\ nth k l d = a.
Proof.
  revert i; induction l as [|x t IH]; intros [|i]; cbn [firstn In].
  - split; [tauto|intros (k & H & _); lia].
  - split; [tauto|intros (k & _ & H & _); cbn in H; lia].
  - split; [tauto|intros (k & H & _); lia].
  - rewrite IH. split.
    + intros [->|(k & Hk & Hl & Hn)]; [exists 0%nat; cbn; repeat split; lia|exists (S k); cbn; repeat split; [lia|lia|exact Hn]].
    + intros ([|k] & Hk & Hl & Hn); [left; exact Hn|right; exists k; cbn in Hl, Hn; repeat split; [lia|lia|exact Hn]].
Qed.

Section L.
Context {E : Type} (ev : evaluator E).

Definition frame (c0 c : core E) : Prop :=
  c_pop c = c_pop c0 /\ c_newpop c = c_newpop c0 /\ c_best c = c_best c0 /\ c_fits c = c_fits c0 /\
  c_bestfit c = c_bestfit c0 /\ c_gen c = c_gen c0 /\ length (c_store c) = length (c_store c0) /\
  length (c_muts c) = length (c_muts c0).

Definition tgt (mu : mutator) cutoff (c0 : core E) k : list npoint :=
  if (k <? cutoff)%nat then buf c0 (nth k (c_pop c0) 0%nat)
  else fst (mu k (buf c0 (nth ((k - cutoff) mod cutoff) (c_pop c0) 0%nat))).
Definition tlog (mu : mutator) cutoff (c0 : core E) k : list mut :=
  if (k <? cutoff)%nat then []
  else snd (mu k (buf c0 (nth ((k - cutoff) mod cutoff) (c_pop c0) 0%nat))).

Definition gen_inv mu cutoff (c0 : core E) i (c : core E) : Prop :=
  frame c0 c /\
  (forall k, (k < i)%nat -> buf c (nth k (c_newpop c0) 0%nat) = tgt mu cutoff c0 k) /\
  (forall a, ~ In a (firstn i (c_newpop c0)) -> buf c a = buf c0 a) /\
  (forall k, nth k (c_muts c) [] = if (k <? i)%nat then tlog mu cutoff c0 k else nth k (c_muts c0) []).

Lemma copy_member_inv i j (c c' : core E) : copy_member i j c = Some c' ->
  (i < length (c_newpop c))%nat /\ (j < length (c_pop c))%nat /\ (i < length (c_muts c))%nat /\
  length (buf c (nth i (c_newpop c) 0%nat)) = length (buf c (nth j (c_pop c) 0%nat)) /\
  c' = with_muts (with_store c (set_nth (nth i (c_newpop c) 0%nat) (buf c (nth j (c_pop c) 0%nat)) (c_store c))) (set_nth i [] (c_muts c)).
Proof.
  unfold copy_member. destruct (nth_error (c_newpop c) i) as [a|] eqn:Ea; [|discriminate].
  destruct (nth_error (c_pop c) j) as [b|] eqn:Eb; [|discriminate].
  destruct (put i [] (c_muts c)) as [m|] eqn:Em; [|discriminate].
  apply put_inv in Em as [Hm ->]. unfold buf_set, buf.
  rewrite (nth_error_nth _ _ 0%nat Ea), (nth_error_nth _ _ 0%nat Eb).
  destruct (Nat.eqb_spec (length (nth a (c_store c) [])) (length (nth b (c_store c) []))) as [Hl|]; cbn [option_map]; [|discriminate].
  intros H; inversion H; subst. split; [apply nth_error_Some; congruence|]. split; [apply nth_error_Some; congruence|]. auto.
Qed.

Lemma shape_nodup n l (c : core E) : shape n l c ->
  (forall i j, (i < n)%nat -> (j < n)%nat -> nth i (c_newpop c) 0%nat <> nth j (c_pop c) 0%nat) /\
  (forall i j, (i < n)%nat -> (j < n)%nat -> nth i (c_newpop c) 0%nat = nth j (c_newpop c) 0%nat -> i = j) /\
  (forall i, (i < n)%nat -> nth i (c_newpop c) 0%nat <> c_best c /\ nth i (c_pop c) 0%nat <> c_best c).
Proof.
  intros [H1 H2 _ _ ND _ _]. inversion ND as [|? ? Hb ND']; subst.
  assert (Hx : forall l1 l2 : list nat, NoDup (l1 ++ l2) -> NoDup l2 /\ forall a, In a l2 -> ~ In a l1).
  { intros l1 l2 Hn. induction l1 as [|a t IH]; cbn in Hn |- *; [split; [exact Hn|tauto]|].
    inversion Hn as [|? ? Ha Ht]; subst. destruct (IH Ht) as [G1 G2]. split; [exact G1|].
    intros z Hz [->|Hz']; [apply Ha, in_or_app; tauto|apply (G2 z Hz Hz')]. }
  destruct (Hx _ _ ND') as [Hn Hd].
  assert (Hi : forall k (q : list nat), (k < length q)%nat -> In (nth k q 0%nat) q) by (intros; apply nth_In; lia).
  repeat split.
  - intros i j Hi1 Hj1 Heq. apply (Hd (nth i (c_newpop c) 0%nat)); [apply Hi; lia|rewrite Heq; apply Hi; lia].
  - intros i j Hi1 Hj1 Heq. apply (proj1 (NoDup_nth _ 0%nat) Hn); [lia|lia|exact Heq].
  - intros Heq. apply Hb. rewrite <- Heq. apply in_or_app. right. apply Hi. lia.
  - intros Heq. apply Hb. rewrite <- Heq. apply in_or_app. left. apply Hi. lia.
Qed.

Lemma firstn_S_not {A} (d : A) i (l : list A) a : (i < length l)%nat -> ~ In a (firstn (S i) l) -> a <> nth i l d /\ ~ In a (firstn i l).
Proof.
  intros Hi H. split.
  - intros ->. apply H. apply (In_firstn_nth d). exists i. repeat split; lia.
  - intros Hin. apply H. apply (In_firstn_nth d) in Hin as (k & Hk & Hl & Hn). apply (In_firstn_nth d). exists k. repeat split; [lia|lia|exact Hn].
Qed.

Section Gen.
Context (mu : mutator) (cutoff n l : nat) (c0 : core E).
Hypothesis Hsh : shape n l c0.

(** Writing [pts] to new member i and [log] to its mutations keeps the invariant. *)
Lemma gen_write i c st ms : (i < n)%nat -> gen_inv mu cutoff c0 i c -> forall e,
  length st = length (c_store c) ->
  (forall a, nth a st [] = if (a =? nth i (c_newpop c0) 0%nat)%nat then tgt mu cutoff c0 i else nth a (c_store c) []) ->
  length ms = length (c_muts c) ->
  (forall k, nth k ms [] = if (k =? i)%nat then tlog mu cutoff c0 i else nth k (c_muts c) []) ->
  gen_inv mu cutoff c0 (S i) (with_ev (with_muts (with_store c st) ms) e).
Proof.
  intros Hi (Hf & Hk & Ho & Hm) e Hs1 Hs2 Hm1 Hm2.
  destruct Hf as (F1 & F2 & F3 & F4 & F5 & F6 & F7 & F8).
  destruct (shape_nodup _ _ _ Hsh) as (N1 & N2 & N3).
  pose proof (sh_new _ _ _ Hsh) as Hln.
  split; [|split; [|split]].
  - unfold frame. cbn [with_ev with_muts with_store c_pop c_newpop c_best c_fits c_bestfit c_gen c_store c_muts].
    repeat split; try assumption; congruence.
  - intros k Hki. unfold buf. cbn [with_ev with_muts with_store c_store]. rewrite Hs2.
    destruct (Nat.eqb_spec (nth k (c_newpop c0) 0%nat) (nth i (c_newpop c0) 0%nat)) as [Heq|Hne].
    + apply N2 in Heq; [subst; reflexivity|lia|lia].
    + apply Hk. assert (k <> i) by congruence. lia.
  - intros a Ha. apply (firstn_S_not 0%nat) in Ha as [Ha1 Ha2]; [|lia].
    unfold buf. cbn [with_ev with_muts with_store c_store]. rewrite Hs2.
    destruct (Nat.eqb_spec a (nth i (c_newpop c0) 0%nat)); [tauto|]. apply Ho, Ha2.
  - intros k. cbn [with_ev with_muts with_store c_muts]. rewrite Hm2.
    destruct (Nat.eqb_spec k i) as [->|Hne].
    + replace (i <? S i)%nat with true by (symmetry; apply Nat.ltb_lt; lia). reflexivity.
    + rewrite Hm. replace (k <? S i)%nat with (k <? i)%nat; [reflexivity|].
      destruct (Nat.ltb_spec k i), (Nat.ltb_spec k (S i)); lia || reflexivity.
Qed.

Lemma gen_src i c j : (j < n)%nat -> gen_inv mu cutoff c0 i c -> buf c (nth j (c_pop c0) 0%nat) = buf c0 (nth j (c_pop c0) 0%nat).
Proof.
  intros Hj (Hf & Hk & Ho & Hm). apply Ho. intros Hin. apply (In_firstn_nth 0%nat) in Hin as (k & Hk1 & Hk2 & Heq).
  destruct (shape_nodup _ _ _ Hsh) as (N1 & _). apply (N1 k j); [rewrite <- (sh_new _ _ _ Hsh); exact Hk2|exact Hj|exact Heq].
Qed.

Lemma gen_copy i c c' : (i < cutoff)%nat -> gen_inv mu cutoff c0 i c -> copy_member i i c = Some c' ->
  (i < n)%nat /\ gen_inv mu cutoff c0 (S i) c'.
Proof.
  intros Hc Hg Hcp. pose proof Hg as (Hf & _). destruct Hf as (F1 & F2 & F3 & F4 & F5 & F6 & F7 & F8).
  apply copy_member_inv in Hcp as (Hi & Hj & Hi2 & Hl & ->).
  assert (Hin : (i < n)%nat) by (rewrite <- (sh_pop _ _ _ Hsh), <- F1; exact Hj).
  split; [exact Hin|].
  pose proof (gen_src i c i Hin Hg) as Hsrc. rewrite F1, F2 in *.
  assert (Hr : (nth i (c_newpop c0) 0 < length (c_store c))%nat).
  { rewrite F7. apply (sh_range _ _ _ Hsh). right. apply in_or_app. right. apply nth_In. exact Hi. }
  replace (with_muts (with_store c (set_nth (nth i (c_newpop c0) 0%nat) (buf c (nth i (c_pop c0) 0%nat)) (c_store c))) (set_nth i [] (c_muts c)))
    with (with_ev (with_muts (with_store c (set_nth (nth i (c_newpop c0) 0%nat) (buf c (nth i (c_pop c0) 0%nat)) (c_store c))) (set_nth i [] (c_muts c))) (c_ev c)) by reflexivity.
  apply gen_write; [exact Hin|exact Hg|apply L_Slice.set_nth_length| |apply L_Slice.set_nth_length|].
  - intros a. rewrite nth_set_nth, (Nat.eqb_sym _ a), (proj2 (Nat.ltb_lt _ _) Hr), andb_true_r.
    unfold tgt. rewrite (proj2 (Nat.ltb_lt _ _) Hc), Hsrc. reflexivity.
  - intros k. rewrite nth_set_nth, (Nat.eqb_sym i k), (proj2 (Nat.ltb_lt _ _) Hi2), andb_true_r.
    unfold tlog. rewrite (proj2 (Nat.ltb_lt _ _) Hc). reflexivity.
Qed.

Lemma set_nth_twice {A} i (a b : A) q : set_nth i a (set_nth i b q) = set_nth i a q.
Proof. revert i; induction q as [|x t IH]; intros [|i]; cbn; [reflexivity..|]. rewrite IH. reflexivity. Qed.

Lemma gen_new i j c c' : (cutoff <= i)%nat -> j = ((i - cutoff) mod cutoff)%nat -> gen_inv mu cutoff c0 i c -> new_member ev mu i j c = Some c' ->
  (i < n)%nat /\ gen_inv mu cutoff c0 (S i) c' /\ ev_base ev (c_ev c) i j = Some (c_ev c').
Proof.
  intros Hc Hjm Hg. unfold new_member. pose proof Hg as (Hf & _). destruct Hf as (F1 & F2 & F3 & F4 & F5 & F6 & F7 & F8).
  destruct (copy_member i j c) as [c1|] eqn:Hcp; [|discriminate].
  apply copy_member_inv in Hcp as (Hi & Hj & Hi2 & Hl & ->). rewrite F1, F2 in *.
  cbn [with_muts with_store c_ev c_newpop c_store c_muts]. rewrite F2.
  destruct (ev_base ev (c_ev c) i j) as [e|] eqn:Eb; [|discriminate].
  destruct (nth_error (c_newpop c0) i) as [a|] eqn:Ea; [|discriminate].
  assert (Hin : (i < n)%nat) by (rewrite <- (sh_new _ _ _ Hsh); exact Hi).
  assert (Hjn : (j < n)%nat) by (rewrite <- (sh_pop _ _ _ Hsh); exact Hj).
  pose proof (gen_src i c j Hjn Hg) as Hsrc.
  apply (nth_error_nth _ _ 0%nat) in Ea. subst a.
  assert (Hr : (nth i (c_newpop c0) 0 < length (c_store c))%nat).
  { rewrite F7. apply (sh_range _ _ _ Hsh). right. apply in_or_app. right. apply nth_In. exact Hi. }
  unfold buf at 1. cbn [with_muts with_store c_store]. rewrite nth_set_nth, Nat.eqb_refl, (proj2 (Nat.ltb_lt _ _) Hr). cbn [andb].
  rewrite Hsrc.
  destruct (mu i (buf c0 (nth j (c_pop c0) 0%nat))) as [pts log] eqn:Emu. intros H; inversion H; subst c'; clear H.
  split; [exact Hin|]. split; [|reflexivity].
  rewrite !set_nth_twice.
  change (gen_inv mu cutoff c0 (S i) (with_ev (with_muts (with_store c (set_nth (nth i (c_newpop c0) 0%nat) pts (c_store c))) (set_nth i log (c_muts c))) e)).
  apply gen_write; [exact Hin|exact Hg|apply L_Slice.set_nth_length| |apply L_Slice.set_nth_length|].
  - intros b. rewrite nth_set_nth, (Nat.eqb_sym _ b), (proj2 (Nat.ltb_lt _ _) Hr), andb_true_r.
    unfold tgt. replace (i <? cutoff)%nat with false by (symmetry; apply Nat.ltb_ge; exact Hc). rewrite <- Hjm, Emu. reflexivity.
  - intros k. rewrite nth_set_nth, (Nat.eqb_sym i k), (proj2 (Nat.ltb_lt _ _) Hi2), andb_true_r.
    unfold tlog. replace (i <? cutoff)%nat with false by (symmetry; apply Nat.ltb_ge; exact Hc). rewrite <- Hjm, Emu. reflexivity.
Qed.

Lemma keep_bases_gen m : forall i c c', (i + m = cutoff)%nat -> gen_inv mu cutoff c0 i c -> keep_bases m i c = Some c' ->
  (i <= n -> cutoff <= n)%nat /\ gen_inv mu cutoff c0 cutoff c' /\ c_ev c' = c_ev c.
Proof.
  induction m as [|m IH]; intros i c c' Him Hg; cbn [keep_bases].
  - intros H; inversion H; subst. replace (i + 0)%nat with i in * by lia. auto.
  - destruct (copy_member i i c) as [c1|] eqn:Ec; [|discriminate]. intros H.
    assert (He : c_ev c1 = c_ev c) by (apply copy_member_inv in Ec as (_ & _ & _ & _ & ->); reflexivity).
    apply gen_copy in Ec as [Hi Hg1]; [|lia|exact Hg].
    apply IH in H as (H1 & H2 & H3); [|lia|exact Hg1]. split; [intros; apply H1; lia|]. split; [exact H2|congruence].
Qed.

Lemma inner_loop_gen lim m : forall j i c c' i', (j + m = cutoff)%nat -> (cutoff <= i)%nat -> (i <= n)%nat -> (m = 0 \/ j = (i - cutoff) mod cutoff)%nat ->
  gen_inv mu cutoff c0 i c -> inner_loop ev mu m j i lim c = Some (c', i') ->
  gen_inv mu cutoff c0 i' c' /\ (i <= i' <= n)%nat /\ (i' <= Nat.max i lim)%nat /\
  ((lim <= i')%nat \/ (i' = i + m)%nat).
Proof.
  induction m as [|m IH]; intros j i c c' i' Hjm Hc Hin Hj Hg; cbn [inner_loop].
  - intros H; inversion H; subst. split; [exact Hg|]. split; [lia|]. split; [lia|right; lia].
  - destruct (Nat.ltb_spec i lim) as [Hl|Hl].
    + destruct (new_member ev mu i j c) as [c1|] eqn:Ec; [|discriminate]. intros H.
      assert (Hjj : j = ((i - cutoff) mod cutoff)%nat) by (destruct Hj; [discriminate|assumption]).
      apply gen_new in Ec as (Hi & Hg1 & _); [|exact Hc|exact Hjj|exact Hg].
      apply IH in H as (H1 & H2 & H3 & H4); [|lia|lia|lia| |exact Hg1].
      * split; [exact H1|]. split; [lia|]. split; [lia|]. destruct H4; [left; assumption|right; lia].
      * destruct m as [|m]; [left; reflexivity|right].
        replace (S i - cutoff)%nat with (1 + (i - cutoff))%nat by lia.
        rewrite <- Nat.add_mod_idemp_r, <- Hjj by lia. rewrite Nat.mod_small; lia.
    + intros H; inversion H; subst. split; [exact Hg|]. split; [lia|]. split; [lia|left; lia].
Qed.

Lemma outer_loop_gen lim fuel : forall i c c', (cutoff <= i)%nat -> (i <= n)%nat -> ((i - cutoff) mod cutoff = 0 \/ lim <= i)%nat -> (cutoff <> 0)%nat ->
  gen_inv mu cutoff c0 i c -> outer_loop ev fuel mu cutoff i lim c = Some c' ->
  gen_inv mu cutoff c0 (Nat.max i lim) c' /\ (lim <= n)%nat.
Proof.
  induction fuel as [|f IH]; intros i c c' Hc Hin Hm H0 Hg; cbn [outer_loop].
  - destruct (Nat.ltb_spec i lim); [discriminate|]. intros H'; inversion H'; subst. rewrite Nat.max_l by lia. split; [assumption|lia].
  - destruct (Nat.ltb_spec i lim) as [Hl|Hl].
    + destruct (inner_loop ev mu cutoff 0 i lim c) as [[c1 i1]|] eqn:Ec; [|discriminate]. intros H.
      apply inner_loop_gen in Ec as (H1 & H2 & H3 & H4); [|lia|lia|lia|right; lia|exact Hg].
      apply IH in H as [G1 G2]; [|lia|lia| |exact H0|exact H1].
      * split; [|exact G2]. replace (Nat.max i1 lim) with (Nat.max i lim) in G1 by lia. exact G1.
      * destruct H4 as [H4|H4]; [right; exact H4|left]. subst i1.
        destruct Hm as [Hm|Hm]; [|lia].
        replace (i + cutoff - cutoff)%nat with ((i - cutoff) + 1 * cutoff)%nat by lia. rewrite Nat.mod_add by lia. exact Hm.
    + intros H'; inversion H'; subst. rewrite Nat.max_l by lia. split; [assumption|lia].
Qed.

Lemma gen_inv_0 : gen_inv mu cutoff c0 0 c0.
Proof. unfold gen_inv, frame. repeat split; intros; try lia; reflexivity. Qed.

Lemma new_generation_gen lim c : (cutoff <> 0)%nat -> new_generation ev mu cutoff lim c0 = Some c ->
  exists c2, gen_inv mu cutoff c0 (Nat.max cutoff lim) c2 /\ (cutoff <= n)%nat /\ (lim <= n)%nat /\
    c = Core (c_store c2) (c_newpop c2) (c_pop c2) (c_best c2) (c_fits c2) (c_muts c2) (c_bestfit c2) (c_gen c2) (c_ev c2).
Proof.
  unfold new_generation. intros H0.
  destruct (keep_bases cutoff 0 c0) as [c1|] eqn:E1; [|discriminate].
  apply keep_bases_gen in E1 as (K1 & K2 & K3); [|lia|apply gen_inv_0].
  destruct (outer_loop ev lim mu cutoff cutoff lim c1) as [c2|] eqn:E2; [|discriminate].
  assert (Hcn : (cutoff <= n)%nat) by (apply K1; lia).
  apply outer_loop_gen in E2 as [G1 G2]; [|lia|lia|left; rewrite Nat.sub_diag; apply Nat.mod_0_l; exact H0|exact H0|exact K2].
  intros H; inversion H; subst. exists c2. auto.
Qed.
End Gen.
End L.
