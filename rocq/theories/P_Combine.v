(** C34, and concrete runs for the theorems on the algorithms. *)
From Coq Require Import ZArith Reals List Bool Arith Lia Permutation Sorted.
From Flocq Require Import IEEE754.BinarySingleNaN.
From Verif Require Import GoNum M_Norm M_Slice M_Algo S_Norm S_Algo L_Norm L_Slice L_Algo L_Algo2 L_Algo3 L_Algo4 L_Algo5 P_Norm P_Algo.
Import ListNotations.

Section P.
Context {E : Type} (ev : evaluator E).

(** Counting positive fitnesses. *)
Lemma filter_length_firstn (F : list f64) b : (forall k, (b <= k < length F)%nat -> flt f0 (nth k F f0) = false) -> (length (filter (flt f0) F) <= b)%nat.
Proof.
  revert b; induction F as [|x t IH]; intros b H; cbn [filter length]; [lia|].
  destruct b as [|b].
  - pose proof (H 0%nat) as H1. cbn [nth length] in H1. rewrite H1 by lia. apply IH. intros k Hk. apply (H (S k)). cbn [length]. lia.
  - assert (Hf : (length (filter (flt f0) t) <= b)%nat) by (apply IH; intros k Hk; apply (H (S k)); cbn [length]; lia).
    destruct (flt f0 x); cbn [length]; lia.
Qed.
Lemma filter_length_ge (F : list f64) b : (b <= length F)%nat -> (forall k, (k < b)%nat -> flt f0 (nth k F f0) = true) -> (b <= length (filter (flt f0) F))%nat.
Proof.
  revert b; induction F as [|x t IH]; intros b Hb H; cbn [filter length] in *; [lia|].
  destruct b as [|b]; [lia|]. pose proof (H 0%nat ltac:(lia)) as H1. cbn [nth] in H1. rewrite H1. cbn [length].
  apply le_n_S, IH; [lia|]. intros k Hk. apply (H (S k)). lia.
Qed.
Lemma filter_length_perm (F G : list f64) : Permutation F G -> length (filter (flt f0) F) = length (filter (flt f0) G).
Proof.
  intros P. induction P; cbn [filter]; [reflexivity| | |congruence].
  - destruct (flt f0 x); cbn [length]; congruence.
  - destruct (flt f0 x), (flt f0 y); reflexivity.
Qed.
Lemma map_snd_combine {A B} (l : list A) (m : list B) : length l = length m -> map snd (combine l m) = m.
Proof. revert m; induction l as [|a t IH]; intros [|b m]; cbn; try discriminate; [reflexivity|]. intros H. rewrite IH by congruence. reflexivity. Qed.

(** In every reachable state the first n-cutoff members have calculated fitnesses: the
    members that carry the fitness 0 are behind them. *)
Lemma bases_evaluated cutoff n l g : (cutoff <> 0)%nat -> genetic_history ev cutoff n l g -> positive ev ->
  forall b, (b < n - cutoff)%nat -> evaluated ev (nth b (members (g_core g)) []) (nth b (c_fits (g_core g)) f0).
Proof.
  intros H0 H Hpos b Hb. destruct (genetic_evaluated ev cutoff n l g H0 H) as (Hcn & _ & _ & Hso & Hev & _).
  destruct (Hev b ltac:(lia)) as [He|He]; [exact He|exfalso].
  destruct (C30_genetic_shape ev cutoff n l g H0 H) as (Hm & _ & Hf & _).
  assert (Hle : (length (filter (flt f0) (c_fits (g_core g))) <= b)%nat).
  { apply filter_length_firstn. intros k Hk. destruct (Nat.eq_dec k b) as [->|Hne]; [rewrite He; reflexivity|].
    specialize (Hso b k ltac:(lia)). unfold less in Hso. rewrite He in Hso. exact Hso. }
  assert (Hge : (n - cutoff <= length (filter (flt f0) (c_fits (g_core g))))%nat); [|lia].
  clear Hev He Hle. destruct H as [groups e s sw g r Hn Hfo Hv Hc Hso'|g mu s sw g' r Hh Hmu Hv Hc Hso'].
  - subst n. apply (new_genetic_spec ev cutoff groups e s sw g r l H0 Hfo Hv) in Hc as (H1 & H2 & H3 & H4 & H5 & H6 & H7 & fs & L & P & R1 & R2).
    apply (Permutation_map snd) in P. rewrite !map_snd_combine in P by lia. rewrite (filter_length_perm _ _ P).
    apply filter_length_ge; [lia|]. intros k Hk. destruct (R1 k Hk) as (e1 & e2 & R). eapply Hpos. exists e1, k, [], e2. exact R.
  - destruct (genetic_history_shape ev cutoff n l g H0 Hh) as (Hs0 & Hq0 & Hb0 & _). destruct g as [c ben]. cbn [g_core g_ben] in *.
    apply (genetic_step_spec ev cutoff mu s sw n l c ben g' r H0 Hs0 Hq0 Hmu Hv Hb0) in Hc
      as (H1 & H2 & H3 & H4 & H5 & H6 & H7 & c3 & bet & fs & Hg & P).
    destruct (members_ok n l c3 (ga_shape _ _ _ _ _ _ _ _ _ Hg) (ga_square _ _ _ _ _ _ _ _ _ Hg)) as [Hm3 _].
    pose proof (ga_len _ _ _ _ _ _ _ _ _ Hg) as Hl3.
    apply (Permutation_map snd) in P. rewrite !map_snd_combine in P by lia. rewrite (filter_length_perm _ _ P).
    apply filter_length_ge; [lia|]. intros k Hk. destruct (ga_plain _ _ _ _ _ _ _ _ _ Hg k Hk) as [_ (e1 & e2 & R)].
    eapply Hpos. exists e1, k, (tlog mu cutoff c k), e2. exact R.
Qed.

(** The members of the next generation before combining, their mutations, and
    which of them improve on their base, written without the model. *)
Definition base_of (bases : list (list npoint)) b := nth b bases [].
Definition child (mu : mutator) cutoff bases i := if (i <? cutoff)%nat then base_of bases i else fst (mu i (base_of bases (i mod cutoff))).
Definition child_log (mu : mutator) cutoff bases i := if (i <? cutoff)%nat then [] else snd (mu i (base_of bases (i mod cutoff))).
Definition improves phi (mu : mutator) cutoff bases i := flt (phi (base_of bases (i mod cutoff)) : f64) (phi (child mu cutoff bases i)).

Lemma mod_shift k cutoff : (cutoff <> 0)%nat -> (cutoff <= k)%nat -> ((k - cutoff) mod cutoff = k mod cutoff)%nat.
Proof. intros H0 H. replace k with ((k - cutoff) + 1 * cutoff)%nat at 2 by lia. rewrite Nat.mod_add by exact H0. reflexivity. Qed.

Lemma tgt_child mu cutoff n l (c : core E) k : (cutoff <> 0)%nat -> (cutoff <= n)%nat -> shape n l c -> (k < n)%nat ->
  tgt mu cutoff c k = child mu cutoff (members c) k /\ tlog mu cutoff c k = child_log mu cutoff (members c) k.
Proof.
  intros H0 Hcn Hs Hk. unfold tgt, tlog, child, child_log, base_of.
  pose proof (Nat.mod_upper_bound k cutoff H0) as Hmb.
  destruct (Nat.ltb_spec k cutoff).
  - rewrite members_nth by (rewrite (sh_pop _ _ _ Hs); lia). auto.
  - rewrite members_nth by (rewrite (sh_pop _ _ _ Hs); lia). rewrite mod_shift by assumption. auto.
Qed.

Lemma combines_ext cutoff lim bet bet' logs logs' F F' b base pts :
  (forall k i m, candidate cutoff lim bet logs b k i m <-> candidate cutoff lim bet' logs' b k i m) ->
  (forall i, (i < lim)%nat -> nth i F f0 = nth i F' f0) ->
  combines cutoff lim bet logs F b base pts -> combines cutoff lim bet' logs' F' b base pts.
Proof.
  intros Hc HF [H1 H2]. split; [exact H1|]. intros k. destruct (H2 k) as [H3 H4]. split.
  - intros Hno. apply H3. intros i m Hx. apply (Hno i m), Hc, Hx.
  - intros (i & m & Hx). destruct H4 as (i' & m' & V1 & V2 & V3); [exists i, m; apply Hc, Hx|].
    exists i', m'. split; [apply Hc, V1|]. split; [exact V2|]. intros i2 m2 Hx2. rewrite <- !HF by (apply Hx2 || apply V1). apply (V3 i2 m2), Hc, Hx2.
Qed.

Section Step.
Context (cutoff n l : nat) (phi : list npoint -> f64) (mu : mutator) (g : mgen E).
Hypothesis H0 : (cutoff <> 0)%nat.
Hypothesis Hh : genetic_history ev cutoff n l g.
Hypothesis Hmu : mutator_ok mu.
Hypothesis Hpos : positive ev.
Hypothesis Hphi : functional ev phi.
Let bases := members (g_core g).
Let fits := map (fun i => phi (child mu cutoff bases i)) (seq 0 n).

Lemma fits_nth i : (i < n)%nat -> nth i fits f0 = phi (child mu cutoff bases i).
Proof.
  intros Hi. unfold fits. rewrite (nth_indep _ f0 (phi (child mu cutoff bases 0))) by (rewrite map_length, seq_length; exact Hi).
  rewrite (map_nth (fun i => phi (child mu cutoff bases i))), seq_nth by exact Hi. reflexivity.
Qed.

(** A step in terms of the children. *)
Lemma step_children s sw g' r : valid_schedule (n - cutoff) s -> genetic_step ev cutoff mu s sw g = Some (g', r) ->
  exists (c3 : core E) fs, length (members c3) = n /\ length fs = n /\
    Permutation (combine (members (g_core g')) (c_fits (g_core g'))) (combine (members c3) fs) /\
    (forall i, (i < n - cutoff)%nat -> nth i (members c3) [] = child mu cutoff bases i /\ nth i fs f0 = phi (child mu cutoff bases i)) /\
    (forall i, (n - cutoff <= i < n)%nat ->
       let cand := candidate cutoff (n - cutoff) (improves phi mu cutoff bases) (child_log mu cutoff bases) (i mod cutoff) in
       (nth i fs f0 = f0 /\ (forall k j m, ~ cand k j m) /\ nth i (members c3) [] = if (i <? cutoff)%nat then child mu cutoff bases i else buf (g_core g) (nth i (c_newpop (g_core g)) 0%nat)) \/
       (combines cutoff (n - cutoff) (improves phi mu cutoff bases) (child_log mu cutoff bases) fits (i mod cutoff) (base_of bases (i mod cutoff)) (nth i (members c3) []) /\
        (exists k j m, cand k j m) /\ nth i fs f0 = phi (nth i (members c3) []))).
Proof.
  intros Hv Hc. destruct (genetic_history_shape ev cutoff n l g H0 Hh) as (Hs0 & Hq0 & Hb0 & Hcn).
  pose proof (bases_evaluated cutoff n l g H0 Hh Hpos) as Hev. pose (c := g_core g). fold c in Hs0, Hq0, Hev.
  assert (Hgeq : g = MGen c (g_ben g)) by (unfold c; destruct g; reflexivity). rewrite Hgeq in Hc.
  apply (genetic_step_spec ev cutoff mu s sw n l c (g_ben g) g' r H0 Hs0 Hq0 Hmu Hv Hb0) in Hc
      as (H1 & H2 & H3 & H4 & H5 & H6 & H7 & c3 & bet & fs & Hg & P).
  destruct (members_ok n l c3 (ga_shape _ _ _ _ _ _ _ _ _ Hg) (ga_square _ _ _ _ _ _ _ _ _ Hg)) as [Hm3 _].
  pose proof (ga_len _ _ _ _ _ _ _ _ _ Hg) as Hl3. clear Hgeq.
  assert (Hfits := fits_nth). unfold bases in Hfits |- *. fold c in Hfits |- *. clearbody c.
  exists c3, fs. split; [exact Hm3|]. split; [exact Hl3|]. split; [exact P|].
  assert (Hplain : forall i, (i < n - cutoff)%nat -> nth i (members c3) [] = child mu cutoff (members c) i /\ nth i fs f0 = phi (child mu cutoff (members c) i)).
  { intros i Hi. destruct (ga_plain _ _ _ _ _ _ _ _ _ Hg i Hi) as [Q (e1 & e2 & R)].
    destruct (tgt_child mu cutoff n l c i H0 ltac:(lia) Hs0 ltac:(lia)) as [T1 T2]. rewrite T1 in *. split; [exact Q|].
    apply Hphi. exists e1, i, (tlog mu cutoff c i), e2. exact R. }
  split; [exact Hplain|]. cbv zeta.
  assert (Hbet : forall j, (j < n - cutoff)%nat -> bet j = improves phi mu cutoff (members c) j \/ child_log mu cutoff (members c) j = []).
  { intros j Hj. pose proof (Nat.mod_upper_bound j cutoff H0) as Hmb.
    destruct (Nat.lt_ge_cases j cutoff) as [Hjc|Hjc]; [right; unfold child_log; rewrite (proj2 (Nat.ltb_lt _ _) Hjc); reflexivity|].
    destruct (tgt_child mu cutoff n l c j H0 ltac:(lia) Hs0 ltac:(lia)) as [_ T2].
    destruct (ga_bet _ _ _ _ _ _ _ _ _ Hg) with (j := j) as [Q|Q]; [|exact Hj|left|right; congruence].
    - intros b Hb Hb2. rewrite (Hphi _ _ (Hev b Hb2)), (proj2 (Hplain b Hb2)). unfold child. rewrite (proj2 (Nat.ltb_lt _ _) Hb). reflexivity.
    - rewrite Q. unfold improves. rewrite (proj2 (Hplain j Hj)), (proj2 (Hplain (j mod cutoff)%nat ltac:(lia))).
      unfold child at 1. rewrite (proj2 (Nat.ltb_lt _ _) Hmb). reflexivity. }
  assert (Hcand : forall b k j m, candidate cutoff (n - cutoff) bet (tlog mu cutoff c) b k j m <->
     candidate cutoff (n - cutoff) (improves phi mu cutoff (members c)) (child_log mu cutoff (members c)) b k j m).
  { intros b k j m. unfold candidate. split; intros (U1 & U2 & U3 & U4 & U5);
      destruct (tgt_child mu cutoff n l c j H0 ltac:(lia) Hs0 ltac:(lia)) as [_ T2]; (rewrite T2 in * || idtac);
      destruct (Hbet j U1) as [Q|Q]; try (rewrite Q in U4; destruct U4); repeat split; try assumption; congruence. }
  intros i Hi. pose proof (Nat.mod_upper_bound i cutoff H0) as Hmb.
  destruct (ga_comb _ _ _ _ _ _ _ _ _ Hg i Hi) as [(Q1 & Q2 & Q3)|(Q1 & Q2 & e1 & e2 & lg & Q3)].
  - left. split; [exact Q1|]. split; [intros k j m Hx; apply (Q2 k j m), Hcand, Hx|]. rewrite Q3.
    destruct (Nat.ltb_spec i cutoff); [apply (tgt_child mu cutoff n l c i H0); [lia|exact Hs0|lia]|reflexivity].
  - right. split; [|split].
    + destruct (tgt_child mu cutoff n l c (i mod cutoff) H0 ltac:(lia) Hs0 ltac:(lia)) as [T1 _]. rewrite T1 in Q1.
      unfold child in Q1. rewrite (proj2 (Nat.ltb_lt _ _) Hmb) in Q1.
      eapply combines_ext; [intros k j m; apply Hcand| |exact Q1].
      intros j Hj. rewrite Hfits by lia. apply Hplain, Hj.
    + destruct Q2 as (k & j & m & Q2). exists k, j, m. apply Hcand, Q2.
    + apply Hphi. exists e1, i, lg, e2. exact Q3.
Qed.

Lemma slot_of b : (b < cutoff)%nat -> (cutoff < n)%nat -> exists i, (n - cutoff <= i < n)%nat /\ (i mod cutoff = b)%nat.
Proof.
  intros Hb Hcn. pose proof (Nat.div_mod (n - cutoff) cutoff H0) as Hd. pose proof (Nat.mod_upper_bound (n - cutoff) cutoff H0) as Hm.
  set (q := ((n - cutoff) / cutoff)%nat) in *. set (t := ((n - cutoff) mod cutoff)%nat) in *.
  destruct (Nat.lt_ge_cases b t) as [Hlt|Hge].
  - exists (b + (S q) * cutoff)%nat. split; [lia|]. rewrite Nat.mod_add by exact H0. apply Nat.mod_small, Hb.
  - exists (b + q * cutoff)%nat. split; [lia|]. rewrite Nat.mod_add by exact H0. apply Nat.mod_small, Hb.
Qed.

(** For every base some member improved on, the population after the Step contains
    the base with the best mutation for every point, with its own fitness. *)
Theorem C34_genetic_combined s sw g' r : valid_schedule (n - cutoff) s -> genetic_step ev cutoff mu s sw g = Some (g', r) ->
  forall b, (b < cutoff)%nat ->
  (exists k i m, candidate cutoff (n - cutoff) (improves phi mu cutoff bases) (child_log mu cutoff bases) b k i m) ->
  exists pts, combines cutoff (n - cutoff) (improves phi mu cutoff bases) (child_log mu cutoff bases) fits b (base_of bases b) pts /\
    In (pts, phi pts) (combine (members (g_core g')) (c_fits (g_core g'))).
Proof.
  intros Hv Hc b Hb (k & j & m & Hcand). destruct (genetic_history_shape ev cutoff n l g H0 Hh) as (_ & _ & _ & Hcn).
  destruct (step_children s sw g' r Hv Hc) as (c3 & fs & L1 & L2 & P & Hp & Hx).
  destruct (slot_of b Hb Hcn) as (i & Hi & Hib). destruct (Hx i Hi) as [(_ & Q & _)|(Q1 & Q2 & Q3)]; rewrite Hib in *; [destruct (Q k j m Hcand)|].
  exists (nth i (members c3) []). split; [exact Q1|]. apply (Permutation_in _ (Permutation_sym P)). rewrite <- Q3. apply combine_nth_In; lia.
Qed.

(** Without fitness ties between members that move the same point of the same base,
    the order in which workers finish does not influence the new population. *)
Theorem C34_schedule_independent s1 sw1 g1 r1 s2 sw2 g2 r2 : valid_schedule (n - cutoff) s1 -> valid_schedule (n - cutoff) s2 ->
  (forall b k i j m m', candidate cutoff (n - cutoff) (improves phi mu cutoff bases) (child_log mu cutoff bases) b k i m ->
     candidate cutoff (n - cutoff) (improves phi mu cutoff bases) (child_log mu cutoff bases) b k j m' -> i <> j ->
     flt (phi (child mu cutoff bases i)) (phi (child mu cutoff bases j)) = true \/ flt (phi (child mu cutoff bases j)) (phi (child mu cutoff bases i)) = true) ->
  genetic_step ev cutoff mu s1 sw1 g = Some (g1, r1) -> genetic_step ev cutoff mu s2 sw2 g = Some (g2, r2) ->
  Permutation (combine (members (g_core g1)) (c_fits (g_core g1))) (combine (members (g_core g2)) (c_fits (g_core g2))).
Proof.
  intros Hv1 Hv2 Htie Hc1 Hc2.
  destruct (genetic_history_shape ev cutoff n l g H0 Hh) as (Hs0 & Hq0 & Hb0 & Hcn).
  destruct (step_children s1 sw1 g1 r1 Hv1 Hc1) as (c3 & fs & L1 & L2 & P & Hp & Hx).
  destruct (step_children s2 sw2 g2 r2 Hv2 Hc2) as (d3 & fs' & L1' & L2' & P' & Hp' & Hx').
  assert (Hboth : forall i, (i < n)%nat -> nth i (members c3) [] = nth i (members d3) [] /\ nth i fs f0 = nth i fs' f0).
  { intros i Hi. destruct (Nat.lt_ge_cases i (n - cutoff)) as [Hlt|Hge].
    - destruct (Hp i Hlt) as [A1 A2]. destruct (Hp' i Hlt) as [B1 B2]. split; congruence.
    - assert (Hi' : (n - cutoff <= i < n)%nat) by lia.
      destruct (Hx i Hi') as [(A1 & A2 & A3)|(A1 & (k & j & m & A2) & A3)]; destruct (Hx' i Hi') as [(B1 & B2 & B3)|(B1 & (k' & j' & m' & B2) & B3)].
      + split; congruence.
      + destruct (A2 _ _ _ B2).
      + destruct (B2 _ _ _ A2).
      + assert (Heq : nth i (members c3) [] = nth i (members d3) []).
        { eapply combines_unique; [| |exact A1|exact B1].
          - intros q. unfold child_log. destruct (Nat.ltb_spec q cutoff) as [|Hq]; [constructor|].
            destruct (Hmu q (base_of bases (q mod cutoff))) as [Hel _].
            { unfold base_of. destruct (nth_in_or_default (q mod cutoff) bases []) as [Hin|Hd]; [|rewrite Hd; constructor].
              apply (members_ok n l _ Hs0 Hq0), Hin. }
            pose proof (el_sorted _ _ _ Hel) as Hss. clear - Hss. revert Hss. generalize (map m_idx (snd (mu q (base_of bases (q mod cutoff))))).
            intros L HL. induction HL as [|a t Ht IH Ha]; constructor; [|exact IH]. intros Hin. rewrite Forall_forall in Ha. specialize (Ha a Hin). lia.
          - intros k0 i0 j0 m0 m1 C1 C2 Hne. rewrite !fits_nth by (destruct C1, C2; lia). apply (Htie _ _ _ _ _ _ C1 C2 Hne). }
        split; congruence. }
  assert (Hm : members c3 = members d3) by (apply nth_ext with (d := []) (d' := []); [congruence|intros i Hi; apply Hboth; lia]).
  assert (Hf : fs = fs') by (apply nth_ext with (d := f0) (d' := f0); [congruence|intros i Hi; apply Hboth; lia]).
  eapply Permutation_trans; [exact P|]. rewrite Hm, Hf. apply Permutation_sym, P'.
Qed.
End Step.
End P.
