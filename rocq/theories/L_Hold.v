(** The object of every member holds that member's points (C28), for any kind of object. *)
From Coq Require Import ZArith List Bool Arith Lia Permutation Sorted.
From Flocq Require Import IEEE754.BinarySingleNaN.
From Verif Require Import GoNum M_Norm M_Slice M_Delaunay M_Algo S_Norm S_Algo M_Fitness S_Fitness L_Norm L_Slice L_PMap L_Algo L_Algo2 L_Algo3 L_Algo4 L_Algo5 L_Fit3.
Import ListNotations.

(** The mutations in [log] turn the points [old] into [new], as multisets. *)
Definition swaps_out (old new : list npoint) (log : list mut) : Prop :=
  exists rest, Permutation old (map m_old log ++ rest) /\ Permutation new (map m_new log ++ rest).

Lemma nth_list {A} (d : A) (l : list A) : l = map (fun i => nth i l d) (seq 0 (length l)).
Proof.
  induction l as [|a l IH]; [reflexivity|]. cbn [length seq map nth]. f_equal. rewrite <- seq_shift, map_map. exact IH.
Qed.
Definition others (ks : list nat) (n : nat) : list nat := filter (fun i => if in_dec Nat.eq_dec i ks then false else true) (seq 0 n).
Lemma split_at {A} (d : A) (l : list A) ks : NoDup ks -> (forall k, In k ks -> (k < length l)%nat) ->
  Permutation l (map (fun i => nth i l d) ks ++ map (fun i => nth i l d) (others ks (length l))).
Proof.
  intros N R. rewrite (nth_list d l) at 1. rewrite <- map_app. apply Permutation_map. unfold others.
  apply NoDup_Permutation.
  - apply seq_NoDup.
  - apply NoDup_app_iff_local; [exact N|apply NoDup_filter, seq_NoDup|]. intros k Hk Hf. apply filter_In in Hf as [_ Hf]. destruct (in_dec Nat.eq_dec k ks); [discriminate|contradiction].
  - intros k. rewrite in_app_iff, filter_In, in_seq. destruct (in_dec Nat.eq_dec k ks) as [I|I]; [split; [auto|intros _; specialize (R k I); lia]|].
    split; [intros H; right; split; [exact H|reflexivity]|intros [H|[H _]]; [contradiction|exact H]].
Qed.
Definition dummy : npoint := NP f0 f0.
Lemma swaps_out_intro old new log : NoDup (map m_idx log) -> length new = length old ->
  (forall m, In m log -> nth_error old (m_idx m) = Some (m_old m) /\ nth_error new (m_idx m) = Some (m_new m)) ->
  (forall i, ~ In i (map m_idx log) -> nth_error new i = nth_error old i) -> swaps_out old new log.
Proof.
  intros N L E F. exists (map (fun i => nth i old dummy) (others (map m_idx log) (length old))).
  assert (R : forall k, In k (map m_idx log) -> (k < length old)%nat).
  { intros k Hk. apply in_map_iff in Hk as (m & <- & Hm). apply nth_error_Some. rewrite (proj1 (E m Hm)). discriminate. }
  split.
  - rewrite (split_at dummy old (map m_idx log) N R) at 1. apply Permutation_app_tail. rewrite map_map.
    erewrite map_ext_in; [apply Permutation_refl|]. intros m Hm. apply nth_error_nth, E, Hm.
  - rewrite (split_at dummy new (map m_idx log) N) at 1 by (rewrite L; exact R). rewrite L. apply Permutation_app.
    + rewrite map_map. erewrite map_ext_in; [apply Permutation_refl|]. intros m Hm. apply nth_error_nth, E, Hm.
    + erewrite map_ext_in; [apply Permutation_refl|]. intros k Hk. apply filter_In in Hk as [_ Hk]. destruct (in_dec Nat.eq_dec k (map m_idx log)) as [|I]; [discriminate|].
      specialize (F k I). destruct (nth_error old k) as [x|] eqn:Ex; [rewrite (nth_error_nth _ _ dummy F), (nth_error_nth _ _ dummy Ex); reflexivity|].
      apply nth_error_None in F, Ex. rewrite !nth_overflow by assumption. reflexivity.
Qed.
Lemma exact_swaps old new log : exact_log old new log -> swaps_out old new log.
Proof.
  intros [H1 H2 H3 H4 _]. apply swaps_out_intro; try assumption.
  clear - H2. induction H2 as [|a t Ht IH Ha]; constructor; [|exact IH]. intros I. rewrite Forall_forall in Ha. specialize (Ha a I). lia.
Qed.
Lemma apply_swaps old new log : NoDup (map m_idx log) -> (forall m, In m log -> nth_error old (m_idx m) = Some (m_old m)) ->
  apply_muts log old = Some new -> swaps_out old new log.
Proof.
  intros N E A. destruct (apply_muts_spec log old new N A) as (H1 & H2 & H3). apply swaps_out_intro; [exact N|exact H1| |exact H2].
  intros m Hm. split; [apply E, Hm|apply H3, Hm].
Qed.

Section Hold.
Context {T : Type} (next : option T -> option T -> list npoint -> list mut -> option T) (fit : T -> option f64)
  (holds : list npoint -> T -> Prop) (l : nat).
Definition okp (pts : list npoint) : Prop := length pts = l /\ Forall pt_in_unit pts.
Hypothesis Hnew : forall base pts log d, okp pts -> next None base pts log = Some d -> holds pts d.
Hypothesis Hkeep : forall d pts log, next (Some d) None pts log = Some d.
Hypothesis Hmod : forall q d q' o pts log d', okp q -> holds q d -> okp q' -> holds q' o -> okp pts -> swaps_out q' pts log ->
  next (Some d) (Some o) pts log = Some d' -> holds pts d'.
Notation ev := (keep_ev next fit).

Record wf (n : nat) (e : keeper T) : Prop := {
  wf_nd : NoDup (b_order e); wf_len : length (b_order e) = n;
  wf_at : forall i, (i < n)%nat -> exists id x, b_at e i = Some (id, x) }.
Definition good (tri : option T) : Prop := forall d, tri = Some d -> exists q, okp q /\ holds q d.
Definition holdsat (e : keeper T) (i : nat) (pts : list npoint) (f : f64) : Prop :=
  okp pts /\ exists id d, b_at e i = Some (id, (Some d, None)) /\ holds pts d /\ fit d = Some f.
(** The objects of the positions below [nb] are bases: [bd j] holds [bp j]. *)
Definition basis (nb : nat) (bp : nat -> list npoint) (bd : nat -> T) (e : keeper T) : Prop :=
  forall j, (j < nb)%nat -> okp (bp j) /\ holds (bp j) (bd j) /\ exists id, b_at e j = Some (id, (Some (bd j), None)).
(** Calculating position [i] for [pts] will make its object hold them. *)
Definition pend (nb : nat) (bp : nat -> list npoint) (e : keeper T) (i : nat) (pts : list npoint) (log : list mut) : Prop :=
  okp pts /\ exists id tri base, b_at e i = Some (id, (tri, base)) /\ good tri /\
  ((base = None /\ tri = None) \/ (base = None /\ exists d, tri = Some d /\ holds pts d) \/
   (exists j jd, (j < nb)%nat /\ base = Some jd /\ nth_error (b_order e) j = Some jd /\ swaps_out (bp j) pts log)).

Lemma b_at_same (e : keeper T) i id x y : b_at e i = Some (id, x) -> b_at (Bare (set_nth id y (b_funs e)) (b_order e)) i = Some (id, y).
Proof.
  intros H. apply b_at_some in H as [A B]. apply b_at_some. cbn [b_order b_funs]. split; [exact A|]. rewrite nth_error_set_nth, Nat.eqb_refl.
  assert (L : (id < length (b_funs e))%nat) by (apply nth_error_Some; congruence). apply Nat.ltb_lt in L. rewrite L. reflexivity.
Qed.
Lemma b_at_other n (e : keeper T) i id x y k : wf n e -> (k < n)%nat -> b_at e i = Some (id, x) -> k <> i ->
  b_at (Bare (set_nth id y (b_funs e)) (b_order e)) k = b_at e k.
Proof.
  intros W Hk Hi Hne. destruct (wf_at _ _ W k Hk) as (kd & z & Ek). rewrite Ek.
  apply (b_at_set e i k id x kd z y); [apply W|exact Hi|exact Ek|congruence].
Qed.
Lemma wf_set n (e : keeper T) i id x y : wf n e -> b_at e i = Some (id, x) -> wf n (Bare (set_nth id y (b_funs e)) (b_order e)).
Proof.
  intros W H. constructor; cbn [b_order]; [apply W|apply W|]. intros k Hk. destruct (Nat.eq_dec k i) as [->|N].
  - exists id, y. eapply b_at_same, H.
  - rewrite (b_at_other n e i id x y k W Hk H N). apply W, Hk.
Qed.

Lemma calc_step n nb bp bd e i pts log e' f : wf n e -> (nb <= n)%nat -> (i < n)%nat -> basis nb bp bd e -> pend nb bp e i pts log ->
  ((i < nb)%nat -> pts = bp i) ->
  ev_calc ev e i pts log = Some (e', f) ->
  wf n e' /\ basis nb bp bd e' /\ b_order e' = b_order e /\ holdsat e' i pts f /\ (forall k, (k < n)%nat -> k <> i -> b_at e' k = b_at e k) /\
  ((i < nb)%nat -> fit (bd i) = Some f).
Proof.
  intros W Hnb Hi B (Ok & id & tri & base & Ea & G & P) Hb. cbn [keep_ev ev_calc]. rewrite Ea.
  destruct (match base with Some b => (b =? id)%nat | None => false end) eqn:Es; [discriminate|]. cbv zeta.
  destruct (next tri _ pts log) as [d|] eqn:En; [|discriminate]. destruct (fit d) as [f'|] eqn:Ef; [|discriminate]. cbn [option_map]. intros [= <- <-].
  assert (Hd : holds pts d).
  { destruct P as [(-> & ->)|[(-> & d0 & -> & Hh)|(j & jd & Hj & -> & Ej & Hs)]].
    - eapply Hnew; eauto.
    - rewrite Hkeep in En. injection En as <-. exact Hh.
    - destruct tri as [d0|]; [|eapply Hnew; eauto]. destruct (B j Hj) as (Oj & Hh & jd' & Bj). apply b_at_some in Bj as [B1 B2].
      rewrite Ej in B1. injection B1 as <-. rewrite B2 in En. cbn [fst] in En. destruct (G d0 eq_refl) as (q & Oq & Hq). exact (Hmod q d0 (bp j) (bd j) pts log d Oq Hq Oj Hh Ok Hs En). }
  assert (Hbase : (i < nb)%nat -> d = bd i).
  { intros Hin. destruct (B i Hin) as (_ & _ & id' & Bi). rewrite Bi in Ea. injection Ea as <- <- <-. rewrite Hkeep in En. congruence. }
  split; [eapply wf_set; eauto|]. split; [|split; [reflexivity|split; [|split]]].
  - intros j Hj. destruct (B j Hj) as (Oj & Hh & jd' & Bj). split; [exact Oj|]. split; [exact Hh|]. exists jd'. destruct (Nat.eq_dec j i) as [->|N].
    + rewrite (b_at_same e i id _ _ Ea), <- (Hbase Hj). rewrite Bj in Ea. injection Ea as <- _ _. reflexivity.
    + rewrite (b_at_other n e i id _ _ j W ltac:(lia) Ea N). exact Bj.
  - split; [exact Ok|]. exists id, d. split; [eapply b_at_same, Ea|auto].
  - intros k Hk N. eapply b_at_other; eauto.
  - intros Hin. rewrite <- (Hbase Hin). exact Ef.
Qed.

(** SetBase *)
Lemma base_step n nb bp bd e i j e' : wf n e -> (nb <= i)%nat -> (i < n)%nat -> (j < nb)%nat -> basis nb bp bd e -> ev_base ev e i j = Some e' ->
  wf n e' /\ basis nb bp bd e' /\ b_order e' = b_order e /\ (forall k, (k < n)%nat -> k <> i -> b_at e' k = b_at e k) /\
  exists id tri base jd, b_at e i = Some (id, (tri, base)) /\ nth_error (b_order e) j = Some jd /\ b_at e' i = Some (id, (tri, Some jd)).
Proof.
  intros W Hi Hn Hj B. cbn [keep_ev ev_base]. destruct (b_at e i) as [[id [tri base]]|] eqn:Ea; [|discriminate].
  destruct (B j Hj) as (Oj & Hh & jd & Bj). rewrite Bj. intros [= <-].
  split; [eapply wf_set; eauto|]. split; [|split; [reflexivity|split]].
  - intros k Hk. destruct (B k Hk) as (Ok & Hk1 & kd & Bk). split; [exact Ok|]. split; [exact Hk1|]. exists kd. rewrite (b_at_other n e i id _ _ k W ltac:(lia) Ea ltac:(lia)). exact Bk.
  - intros k Hk N. eapply b_at_other; eauto.
  - exists id, tri, base, jd. split; [reflexivity|]. split; [apply (proj1 (b_at_some _ _ _ _) Bj)|]. eapply b_at_same, Ea.
Qed.

(** newGeneration only calls SetBase *)
Lemma copy_ev i j (c c' : core (keeper T)) : copy_member i j c = Some c' -> c_ev c' = c_ev c.
Proof. intros H. apply copy_member_inv in H as (_ & _ & _ & _ & ->). reflexivity. Qed.
Lemma keep_ev_same m : forall i (c c' : core (keeper T)), keep_bases m i c = Some c' -> c_ev c' = c_ev c.
Proof.
  induction m as [|m IH]; intros i c c'; cbn [keep_bases]; [intros [= <-]; reflexivity|]. destruct (copy_member i i c) as [c1|] eqn:E; [|discriminate].
  intros H. apply IH in H. rewrite H. eapply copy_ev, E.
Qed.
Definition based (cutoff : nat) (e0 e : keeper T) (lo hi : nat) : Prop :=
  forall i, (lo <= i < hi)%nat -> exists id tri base jd, b_at e0 i = Some (id, (tri, base)) /\
    nth_error (b_order e0) ((i - cutoff) mod cutoff) = Some jd /\ b_at e i = Some (id, (tri, Some jd)).
(** State of the evaluator while positions cutoff, ..., i-1 have been given a base. *)
Record gstate (cutoff n : nat) bp bd (e0 e : keeper T) (i : nat) : Prop := {
  gs_wf : wf n e; gs_basis : basis cutoff bp bd e; gs_order : b_order e = b_order e0; gs_based : based cutoff e0 e cutoff i;
  gs_rest : forall k, (k < n)%nat -> ~ (cutoff <= k < i)%nat -> b_at e k = b_at e0 k }.
Lemma new_member_ev mu cutoff n bp bd e0 i j (c c' : core (keeper T)) : (cutoff <= i < n)%nat -> (j < cutoff)%nat -> j = ((i - cutoff) mod cutoff)%nat ->
  gstate cutoff n bp bd e0 (c_ev c) i -> new_member ev mu i j c = Some c' -> gstate cutoff n bp bd e0 (c_ev c') (S i).
Proof.
  intros Hi Hj Ej [W B O D R]. unfold new_member. destruct (copy_member i j c) as [c1|] eqn:E1; [|discriminate]. apply copy_ev in E1. rewrite E1.
  destruct (ev_base ev (c_ev c) i j) as [e|] eqn:Eb; [|discriminate]. destruct (nth_error (c_newpop c1) i); [|discriminate]. destruct (mu i _). intros [= <-]. cbn [with_ev c_ev].
  destruct (base_step n cutoff bp bd (c_ev c) i j e W ltac:(lia) ltac:(lia) Hj B Eb) as (W' & B' & O' & K' & id & tri & base & jd & A1 & A2 & A3).
  constructor; [exact W'|exact B'|congruence| |].
  - intros k Hk. destruct (Nat.eq_dec k i) as [->|N].
    + exists id, tri, base, jd. rewrite <- Ej. rewrite <- (R i ltac:(lia) ltac:(lia)). rewrite <- O. auto.
    + rewrite K' by lia. apply D. lia.
  - intros k Hk Hn. rewrite K' by lia. apply R; lia.
Qed.
Lemma inner_ev mu cutoff n lim bp bd e0 m : forall j i (c c' : core (keeper T)) i', (j + m = cutoff)%nat -> (cutoff <= i)%nat -> (lim <= n)%nat -> (m = 0 \/ j = (i - cutoff) mod cutoff)%nat ->
  gstate cutoff n bp bd e0 (c_ev c) i -> inner_loop ev mu m j i lim c = Some (c', i') -> gstate cutoff n bp bd e0 (c_ev c') i' /\ (i <= i')%nat /\ (i <= lim -> i' <= lim)%nat /\ (i' = i + m \/ lim <= i')%nat.
Proof.
  induction m as [|m IH]; intros j i c c' i' Hjm Hci Hln Hj G; cbn [inner_loop]; [intros [= <- <-]; split; [exact G|lia]|].
  destruct (Nat.ltb_spec i lim) as [Hl|Hl]; [|intros [= <- <-]; split; [exact G|lia]].
  destruct (new_member ev mu i j c) as [c1|] eqn:E; [|discriminate]. destruct Hj as [Hj|Hj]; [lia|].
  apply (new_member_ev mu cutoff n bp bd e0 i j c c1 ltac:(lia) ltac:(lia) Hj G) in E. intros H.
  apply IH in H as (H1 & H2 & H3 & H4); [split; [exact H1|lia]|lia|lia|lia| |exact E].
  destruct m as [|m]; [left; reflexivity|right].
  assert (Hc : (cutoff <> 0)%nat) by lia. pose proof (Nat.div_mod (i - cutoff) cutoff Hc) as Hd. rewrite <- Hj in Hd.
  apply (Nat.mod_unique _ _ ((i - cutoff) / cutoff)); [lia|]. rewrite Nat.sub_succ_l by lia. lia.
Qed.
Lemma outer_ev mu cutoff n lim bp bd e0 fuel : (cutoff <> 0)%nat -> (lim <= n)%nat -> forall i (c c' : core (keeper T)), (cutoff <= i)%nat -> ((i - cutoff) mod cutoff = 0 \/ lim <= i)%nat ->
  gstate cutoff n bp bd e0 (c_ev c) i -> outer_loop ev fuel mu cutoff i lim c = Some c' -> exists i', gstate cutoff n bp bd e0 (c_ev c') i' /\ (lim <= i')%nat /\ (i <= lim -> i' = lim)%nat.
Proof.
  intros H0 Hln. induction fuel as [|fuel IH]; intros i c c' Hci Hi G; cbn [outer_loop]; destruct (Nat.ltb_spec i lim) as [Hl|Hl]; try discriminate;
    try (intros [= <-]; exists i; split; [exact G|lia]; fail).
  destruct (inner_loop ev mu cutoff 0 i lim c) as [[c1 i1]|] eqn:E; [|discriminate].
  apply (inner_ev mu cutoff n lim bp bd e0 cutoff 0 i c c1 i1) in E as (H1 & H2 & H3 & H4); [|lia|exact Hci|exact Hln|destruct Hi; [right; congruence|lia]|exact G].
  intros H. apply IH in H as (i' & K1 & K2 & K3); [|lia| |exact H1].
  - exists i'. split; [exact K1|]. split; [exact K2|]. intros Hil. apply K3. lia.
  - destruct H4 as [->|H4]; [|right; exact H4]. left. replace (i + cutoff - cutoff)%nat with (i - cutoff + 1 * cutoff)%nat by lia. rewrite Nat.mod_add by exact H0. destruct Hi; [assumption|lia].
Qed.
Lemma generation_ev mu cutoff n lim bp bd (c c' : core (keeper T)) : (cutoff <> 0)%nat -> (lim <= n)%nat -> wf n (c_ev c) -> basis cutoff bp bd (c_ev c) ->
  new_generation ev mu cutoff lim c = Some c' -> gstate cutoff n bp bd (c_ev c) (c_ev c') (Nat.max cutoff lim).
Proof.
  intros H0 Hln W B. unfold new_generation. destruct (keep_bases cutoff 0 c) as [c1|] eqn:E1; [|discriminate]. apply keep_ev_same in E1.
  destruct (outer_loop ev lim mu cutoff cutoff lim c1) as [c2|] eqn:E2; [|discriminate]. intros [= <-]. cbn [c_ev].
  assert (G0 : gstate cutoff n bp bd (c_ev c) (c_ev c1) cutoff) by (rewrite E1; constructor; [exact W|exact B|reflexivity|intros k Hk; lia|reflexivity]).
  destruct (Nat.le_gt_cases lim cutoff) as [Hl|Hl].
  - destruct lim as [|lim]; cbn [outer_loop] in E2.
    + injection E2 as <-. rewrite Nat.max_l by lia. exact G0.
    + destruct (Nat.ltb_spec cutoff (S lim)); [lia|]. injection E2 as <-. rewrite Nat.max_l by lia. exact G0.
  - apply (outer_ev mu cutoff n lim bp bd (c_ev c) lim H0 Hln cutoff) in E2 as (i' & K1 & K2 & K3); [|lia|left; rewrite Nat.sub_diag; apply Nat.mod_0_l, H0|exact G0].
    rewrite Nat.max_r by lia. rewrite <- (K3 ltac:(lia)). exact K1.
Qed.

(** calculateFitnesses *)
Lemma pend_at nb bp (e e' : keeper T) i pts log : b_at e' i = b_at e i -> b_order e' = b_order e -> pend nb bp e i pts log -> pend nb bp e' i pts log.
Proof.
  intros A O (Ok & id & tri & base & Ea & G & P). split; [exact Ok|]. exists id, tri, base. split; [rewrite A; exact Ea|]. split; [exact G|].
  destruct P as [P|[P|(j & jd & P1 & P2 & P3 & P4)]]; auto. right. right. exists j, jd. rewrite O. auto.
Qed.
Record cinv (n lim nb : nat) bp bd (c0 : core (keeper T)) (p : list act) (c : core (keeper T)) (r : results) : Prop := {
  ci_wf : wf n (c_ev c); ci_basis : basis nb bp bd (c_ev c); ci_order : b_order (c_ev c) = b_order (c_ev c0);
  ci_todo : forall i, (i < n)%nat -> ~ In (Calc i) p -> b_at (c_ev c) i = b_at (c_ev c0) i;
  ci_done : forall i, (i < lim)%nat -> In (Calc i) p -> exists f, result r i = Some f /\ holdsat (c_ev c) i (buf c0 (nth i (c_pop c0) 0%nat)) f /\ ((i < nb)%nat -> fit (bd i) = Some f) }.
Lemma act_hold n lim nb bp bd c0 p c r a c' r' : (nb <= n)%nat -> (lim <= n)%nat ->
  (forall i, (i < lim)%nat -> pend nb bp (c_ev c0) i (buf c0 (nth i (c_pop c0) 0%nat)) (nth i (c_muts c0) [])) ->
  (forall i, (i < nb)%nat -> (i < lim)%nat -> buf c0 (nth i (c_pop c0) 0%nat) = bp i) ->
  ~ In a p -> (forall i, a = Calc i -> (i < lim)%nat) ->
  c_store c = c_store c0 -> c_pop c = c_pop c0 -> c_muts c = c_muts c0 ->
  cinv n lim nb bp bd c0 p c r -> do_act ev (c, r) a = Some (c', r') -> cinv n lim nb bp bd c0 (p ++ [a]) c' r'.
Proof.
  intros Hnb Hlim HP HB Hna Hal S1 S2 S3 [W B O Td Dn]. unfold do_act. destruct a as [|i|i].
  - cbn [keep_ev ev_prepare option_map]. intros [= <- <-]. constructor; cbn [with_ev c_ev]; try assumption.
    + intros i Hi Hn. apply Td; [exact Hi|]. intros I. apply Hn, in_or_app. auto.
    + intros i Hi I. apply in_app_or in I as [I|[I|[]]]; [apply Dn; assumption|discriminate].
  - specialize (Hal i eq_refl). rewrite S2, S3. destruct (nth_error (c_pop c0) i) as [a|] eqn:Ea; [|discriminate]. destruct (nth_error (c_muts c0) i) as [m|] eqn:Em; [|discriminate].
    destruct (ev_calc ev (c_ev c) i _ m) as [[e f]|] eqn:Ee; [|discriminate]. cbn [option_map fst snd]. intros [= <- <-].
    assert (Hbuf : buf c a = buf c0 (nth i (c_pop c0) 0%nat)) by (unfold buf; rewrite S1, (nth_error_nth _ _ 0%nat Ea); reflexivity).
    rewrite Hbuf in Ee. rewrite <- (nth_error_nth _ _ [] Em) in Ee.
    assert (Hin : (i < n)%nat) by lia. destruct (calc_step n nb bp bd (c_ev c) i (buf c0 (nth i (c_pop c0) 0%nat)) (nth i (c_muts c0) []) e f W Hnb Hin B) as (W' & B' & O' & H' & K' & F'); [| |exact Ee|].
    { apply (pend_at nb bp (c_ev c0)); [apply Td; [lia|exact Hna]|exact O|apply HP, Hal]. }
    { intros Hinb. apply HB; assumption. }
    constructor; cbn [with_ev c_ev]; [exact W'|exact B'|congruence| |].
    + intros k Hk Hn. rewrite K'; [apply Td; [exact Hk|]|exact Hk|].
      * intros I. apply Hn, in_or_app. auto.
      * intros ->. apply Hn, in_or_app. right. left. reflexivity.
    + intros k Hk I. rewrite result_cons. destruct (Nat.eqb_spec i k) as [->|N].
      * exists f. auto.
      * apply in_app_or in I as [I|[I|[]]]; [|congruence]. destruct (Dn k Hk I) as (g & G1 & G2 & G3). exists g. split; [exact G1|]. split; [|exact G3].
        destruct G2 as (Ok & id & d & A1 & A2). split; [exact Ok|]. exists id, d. rewrite K' by lia. auto.
  - destruct (result r i) as [f|]; [|discriminate]. destruct (put i f (c_fits c)) as [fs|]; [|discriminate].
    cbn [keep_ev ev_update]. destruct (b_at (c_ev c) i); [|discriminate]. cbn [option_map]. intros [= <- <-]. constructor; cbn [with_ev c_ev]; try assumption.
    + intros k Hk Hn. apply Td; [exact Hk|]. intros I. apply Hn, in_or_app. auto.
    + intros k Hk I. apply in_app_or in I as [I|[I|[]]]; [apply Dn; assumption|discriminate].
Qed.
Lemma acts_hold_aux n lim nb bp bd c0 s : (nb <= n)%nat -> (lim <= n)%nat ->
  (forall i, (i < lim)%nat -> pend nb bp (c_ev c0) i (buf c0 (nth i (c_pop c0) 0%nat)) (nth i (c_muts c0) [])) ->
  (forall i, (i < nb)%nat -> (i < lim)%nat -> buf c0 (nth i (c_pop c0) 0%nat) = bp i) ->
  forall p c r c' r', ordered (p ++ s) -> (forall i, In (Calc i) (p ++ s) -> (i < lim)%nat) -> prefix_inv ev c0 p c r -> cinv n lim nb bp bd c0 p c r ->
  do_acts ev s (c, r) = Some (c', r') -> cinv n lim nb bp bd c0 (p ++ s) c' r'.
Proof.
  intros Hnb Hlim HP HB. induction s as [|a s IH]; intros p c r c' r' Ho Hc Hp Hi; cbn [do_acts].
  - intros H; inversion H; subst. rewrite app_nil_r. exact Hi.
  - destruct (do_act ev (c, r) a) as [[c1 r1]|] eqn:Ea; [|discriminate]. intros H.
    replace (p ++ a :: s) with ((p ++ [a]) ++ s) in * by (rewrite <- app_assoc; reflexivity).
    pose proof Ho as [Hnd Ho']. assert (Hna : ~ In a p).
    { intros Hin. rewrite <- app_assoc in Hnd. apply NoDup_remove_2 in Hnd. apply Hnd, in_or_app. auto. }
    apply IH with (c := c1) (r := r1); [exact Ho|exact Hc| | |exact H].
    + apply do_act_inv with (c := c) (r := r); [| | |exact Hp|exact Ea].
      * intros i ->. apply (Ho' p i s). rewrite <- app_assoc. reflexivity.
      * exact Hna.
      * intros i Hin. apply in_split in Hin as (l1 & l2 & ->). apply in_or_app. left.
        apply (Ho' l1 i ((l2 ++ [a]) ++ s)). rewrite <- !app_assoc. cbn [app]. rewrite <- ?app_assoc. reflexivity.
    + destruct Hp as ((S1 & S2 & _ & _ & S5 & _) & _). apply (act_hold n lim nb bp bd c0 p c r a c1 r1 Hnb Hlim HP HB Hna); [|exact S1|exact S2|exact S5|exact Hi|exact Ea].
      intros i ->. apply Hc. apply in_or_app. left. apply in_or_app. right. left. reflexivity.
Qed.
Lemma acts_hold n lim nb bp bd c s c' r : (nb <= n)%nat -> (lim <= n)%nat -> wf n (c_ev c) -> basis nb bp bd (c_ev c) ->
  (forall i, (i < lim)%nat -> pend nb bp (c_ev c) i (buf c (nth i (c_pop c) 0%nat)) (nth i (c_muts c) [])) ->
  (forall i, (i < nb)%nat -> (i < lim)%nat -> buf c (nth i (c_pop c) 0%nat) = bp i) ->
  valid_schedule lim s -> do_acts ev s (c, []) = Some (c', r) ->
  wf n (c_ev c') /\ basis nb bp bd (c_ev c') /\ b_order (c_ev c') = b_order (c_ev c) /\
  (forall i, (i < lim)%nat -> result r i = Some (nth i (c_fits c') f0) /\ holdsat (c_ev c') i (buf c (nth i (c_pop c) 0%nat)) (nth i (c_fits c') f0) /\ ((i < nb)%nat -> fit (bd i) = Some (nth i (c_fits c') f0))) /\
  (forall k, (lim <= k < n)%nat -> b_at (c_ev c') k = b_at (c_ev c) k).
Proof.
  intros Hnb Hlim W B HP HB Hv Hd. pose proof (valid_ordered _ _ Hv) as [Ho _].
  assert (Hcalc : forall i, In (Calc i) s <-> (i < lim)%nat).
  { intros i. destruct Hv as [Hc _]. erewrite count_occ_In. rewrite Hc. destruct (Nat.ltb_spec i lim); lia. }
  destruct (gather ev lim s c c' r Hv Hd) as (_ & T1 & _).
  apply (acts_hold_aux n lim nb bp bd c s Hnb Hlim HP HB []) in Hd as [W' B' O' Td' Dn'].
  - cbn [app] in *. split; [exact W'|]. split; [exact B'|]. split; [exact O'|]. split.
    + intros i Hi. destruct (Dn' i Hi (proj2 (Hcalc i) Hi)) as (f & F1 & F2 & F3). destruct (T1 i Hi) as (R1 & _). rewrite R1 in F1. injection F1 as <-. auto.
    + intros k Hk. apply Td'; [lia|]. rewrite Hcalc. lia.
  - exact Ho.
  - intros i Hi. apply Hcalc, Hi.
  - apply prefix_inv_0.
  - constructor; try assumption; try reflexivity. intros i _ [].
Qed.

(** Sorting moves population, fitnesses and objects together. *)
Definition idle (e : keeper T) (i : nat) : Prop := exists id tri, b_at e i = Some (id, (tri, None)) /\ good tri.
Definition together (n : nat) (c c' : core (keeper T)) : Prop :=
  wf n (c_ev c') /\ length (c_pop c') = n /\ length (c_fits c') = n /\ b_funs (c_ev c') = b_funs (c_ev c) /\
  forall i, (i < n)%nat -> exists k, (k < n)%nat /\ nth i (c_pop c') 0%nat = nth k (c_pop c) 0%nat /\ nth i (c_fits c') f0 = nth k (c_fits c) f0 /\
     nth_error (b_order (c_ev c')) i = nth_error (b_order (c_ev c)) k.
Lemma together_b_at (e e' : keeper T) i k : b_funs e' = b_funs e -> nth_error (b_order e') i = nth_error (b_order e) k -> b_at e' i = b_at e k.
Proof. unfold b_at. intros -> ->. reflexivity. Qed.
Lemma swap_at_nth {A} i j (q q' : list A) : swap_at i j q = Some q' -> (i < length q)%nat /\ (j < length q)%nat /\
  forall k, nth_error q' k = nth_error q (if (k =? i)%nat then j else if (k =? j)%nat then i else k).
Proof.
  unfold swap_at. destruct (nth_error q i) as [x|] eqn:Ei; [|discriminate]. destruct (nth_error q j) as [y|] eqn:Ej; [|discriminate]. intros [= <-].
  assert (Li : (i < length q)%nat) by (apply nth_error_Some; congruence). assert (Lj : (j < length q)%nat) by (apply nth_error_Some; congruence).
  split; [exact Li|]. split; [exact Lj|]. intros k. rewrite !nth_error_set_nth, ?set_nth_length.
  repeat match goal with |- context [(?a =? ?b)%nat] => destruct (Nat.eqb_spec a b); subst end; try congruence;
  repeat match goal with |- context [(?a <? ?b)%nat] => destruct (Nat.ltb_spec a b) end; try congruence; try lia.
Qed.
Lemma nth_of_error {A} (q q' : list A) i k d : nth_error q i = nth_error q' k -> nth i q d = nth k q' d.
Proof.
  intros H. destruct (nth_error q i) as [x|] eqn:E.
  - rewrite (nth_error_nth _ _ d E), (nth_error_nth _ _ d (eq_sym H)). reflexivity.
  - symmetry in H. apply nth_error_None in E, H. rewrite !nth_overflow by assumption. reflexivity.
Qed.
Lemma swaps_together n sw : forall c c', wf n (c_ev c) -> length (c_pop c) = n -> length (c_fits c) = n -> do_swaps ev sw c = Some c' -> together n c c'.
Proof.
  induction sw as [|[i j] sw IH]; intros c c' W L1 L2; cbn [do_swaps].
  - intros [= <-]. split; [exact W|]. split; [exact L1|]. split; [exact L2|]. split; [reflexivity|]. intros k Hk. exists k. auto.
  - destruct (swap_members ev c (i, j)) as [c1|] eqn:E1; [|discriminate]. unfold swap_members in E1.
    destruct (swap_at i j (c_fits c)) as [f|] eqn:Ef; [|discriminate]. destruct (swap_at i j (c_pop c)) as [p|] eqn:Ep; [|discriminate].
    cbn [keep_ev ev_swap] in E1. destruct (swap_at i j (b_order (c_ev c))) as [o|] eqn:Eo; [|discriminate]. cbn [option_map] in E1. injection E1 as <-. intros H.
    destruct (swap_at_nth i j _ _ Ef) as (F1 & F2 & F3). destruct (swap_at_nth i j _ _ Ep) as (P1 & P2 & P3). destruct (swap_at_nth i j _ _ Eo) as (O1 & O2 & O3).
    set (t k := if (k =? i)%nat then j else if (k =? j)%nat then i else k) in *.
    assert (Ht : forall k, (k < n)%nat -> (t k < n)%nat) by (intros k Hk; unfold t; destruct (k =? i)%nat; [lia|destruct (k =? j)%nat; lia]).
    apply IH in H as (W' & L1' & L2' & Fu & H).
    + split; [exact W'|]. split; [exact L1'|]. split; [exact L2'|]. split; [exact Fu|]. intros k Hk. destruct (H k Hk) as (k' & K1 & K2 & K3 & K4). cbn [c_pop c_fits c_ev b_order] in *.
      exists (t k'). split; [apply Ht, K1|]. split; [rewrite K2; apply nth_of_error, P3|]. split; [rewrite K3; apply nth_of_error, F3|]. rewrite K4. apply O3.
    + cbn [c_ev]. constructor; cbn [b_order].
      * apply (Permutation_NoDup (Permutation_sym (swap_at_perm _ _ _ _ Eo))), W.
      * rewrite (swap_at_length _ _ _ _ Eo). apply W.
      * intros k Hk. rewrite (together_b_at (c_ev c) _ k (t k)); [apply W, Ht, Hk|reflexivity|cbn [b_order]; apply O3].
    + cbn [c_pop]. rewrite (swap_at_length _ _ _ _ Ep). exact L1.
    + cbn [c_fits]. rewrite (swap_at_length _ _ _ _ Ef). exact L2.
Qed.
Lemma update_together n q sw (c c' : core (keeper T)) : shape n q c -> wf n (c_ev c) -> update_fitnesses ev sw c = Some c' -> together n c c' /\
  forall i, (i < n)%nat -> exists k, (k < n)%nat /\ nth i (members c') [] = nth k (members c) [] /\ nth i (c_fits c') f0 = nth k (c_fits c) f0 /\ b_at (c_ev c') i = b_at (c_ev c) k.
Proof.
  intros Hs W H. destruct (update_rel ev sw c c' n q Hs H) as (U1 & U2 & U3 & U4 & U5 & U6 & U7 & U8 & U9 & U10 & U11).
  unfold update_fitnesses in H. destruct (do_swaps ev sw c) as [c1|] eqn:E1; [|discriminate].
  apply (swaps_together n sw c c1 W (sh_pop _ _ _ Hs) (sh_fits _ _ _ Hs)) in E1.
  assert (E : together n c c').
  { unfold take_best in H. destruct (nth_error (c_pop c1) 0); [|discriminate]. destruct (nth_error (c_fits c1) 0); [|discriminate]. destruct (buf_set _ _ _); [|discriminate].
    cbn [option_map] in H. injection H as <-. exact E1. }
  split; [exact E|]. destruct E as (W' & L1 & L2 & Fu & E). intros i Hi. destruct (E i Hi) as (k & Hk & K1 & K2 & K3). exists k. split; [exact Hk|].
  split; [|split; [exact K2|apply together_b_at; assumption]].
  rewrite !members_nth by (rewrite ?L1, ?(sh_pop _ _ _ Hs); assumption). rewrite K1. apply U10.
  pose proof (sh_distinct _ _ _ Hs) as ND. inversion ND as [|? ? Hb _]; subst. intros Heq. apply Hb, in_or_app. left. rewrite <- Heq. apply nth_In. rewrite (sh_pop _ _ _ Hs). exact Hk.
Qed.

(** newGeneration leaves every member to be calculated ready. *)
Lemma mutated_ok n mu cutoff (c : core (keeper T)) i : shape n l c -> in_square c -> mutator_ok mu -> (cutoff <> 0)%nat -> (cutoff <= n)%nat -> (i < n)%nat -> okp (tgt mu cutoff c i).
Proof.
  intros Hs Hq Hmu H0 Hcn Hi.
  assert (Hpin : forall k, (k < n)%nat -> In (nth k (c_pop c) 0%nat) (c_best c :: c_pop c ++ c_newpop c)).
  { intros k Hk. right. apply in_or_app. left. apply nth_In. rewrite (sh_pop _ _ _ Hs). exact Hk. }
  unfold tgt. destruct (Nat.ltb_spec i cutoff).
  - split; [apply (sh_points _ _ _ Hs), Hpin, Hi|apply Hq, Hpin, Hi].
  - assert (Hj : ((i - cutoff) mod cutoff < n)%nat) by (pose proof (Nat.mod_upper_bound (i - cutoff) cutoff H0); lia).
    destruct (Hmu i (buf c (nth ((i - cutoff) mod cutoff) (c_pop c) 0%nat)) (Hq _ (Hpin _ Hj))) as [G1 G2].
    split; [|exact G2]. rewrite (exact_length _ _ _ G1). apply (sh_points _ _ _ Hs), Hpin, Hj.
Qed.
Lemma holdsat_idle e i pts f : holdsat e i pts f -> idle e i.
Proof. intros (Ok & id & d & A & H & F). exists id, (Some d). split; [exact A|]. intros d' [= <-]. exists pts. auto. Qed.
Lemma holdsat_choose (e : keeper T) cutoff (bp : nat -> list npoint) (F : nat -> f64) : (cutoff <> 0)%nat -> (forall i, (i < cutoff)%nat -> holdsat e i (bp i) (F i)) ->
  exists bd, basis cutoff bp bd e /\ forall i, (i < cutoff)%nat -> fit (bd i) = Some (F i).
Proof.
  intros H0 H. destruct (H 0%nat ltac:(lia)) as (_ & _ & d0 & _).
  exists (fun i => match b_at e i with Some (_, (Some d, _)) => d | _ => d0 end).
  split; intros i Hi; destruct (H i Hi) as (Ok & id & d & A & B & C); rewrite A; eauto.
Qed.
Lemma generation_pend mu cutoff lim n (c c1 : core (keeper T)) : (cutoff <> 0)%nat -> shape n l c -> in_square c -> mutator_ok mu -> wf n (c_ev c) ->
  (forall i, (i < cutoff)%nat -> (i < n)%nat -> holdsat (c_ev c) i (nth i (members c) []) (nth i (c_fits c) f0)) -> (forall i, (i < n)%nat -> idle (c_ev c) i) ->
  new_generation ev mu cutoff lim c = Some c1 ->
  forall bp, (forall i, bp i = nth i (members c) []) ->
  exists bd, wf n (c_ev c1) /\ basis cutoff bp bd (c_ev c1) /\ (forall i, (i < cutoff)%nat -> fit (bd i) = Some (nth i (c_fits c) f0)) /\
  (forall i, (i < lim)%nat -> pend cutoff bp (c_ev c1) i (buf c1 (nth i (c_pop c1) 0%nat)) (nth i (c_muts c1) [])) /\
  (forall i, (i < cutoff)%nat -> buf c1 (nth i (c_pop c1) 0%nat) = bp i) /\
  (forall k, (Nat.max cutoff lim <= k < n)%nat -> idle (c_ev c1) k).
Proof.
  intros H0 Hs Hq Hmu W Hh Hid E1 bp Hbp.
  pose proof (new_generation_shape ev mu cutoff lim n l c c1 H0 Hs Hq Hmu E1) as (G1 & G2 & G3 & G4 & G5 & G6 & G7 & G8 & G9 & G10 & G11 & G12 & G13 & G14).
  destruct (holdsat_choose (c_ev c) cutoff bp (fun i => nth i (c_fits c) f0) H0) as (bd & B & Fb); [intros i Hi; rewrite Hbp; apply Hh; lia|].
  destruct (generation_ev mu cutoff n lim bp bd c c1 H0 G9 W B E1) as [W1 B1 O1 D1 R1].
  assert (Hm1 : forall i, (i < n)%nat -> buf c1 (nth i (c_pop c1) 0%nat) = nth i (members c1) []).
  { intros i Hi. symmetry. apply members_nth. rewrite (sh_pop _ _ _ G1). exact Hi. }
  assert (Hm : forall i, (i < n)%nat -> buf c (nth i (c_pop c) 0%nat) = nth i (members c) []).
  { intros i Hi. symmetry. apply members_nth. rewrite (sh_pop _ _ _ Hs). exact Hi. }
  exists bd. split; [exact W1|]. split; [exact B1|]. split; [exact Fb|]. split; [|split].
  - intros i Hi. rewrite Hm1 by lia. destruct (G12 i ltac:(lia)) as [-> ->].
    split; [apply (mutated_ok n); try assumption; lia|]. destruct (Nat.lt_ge_cases i cutoff) as [Hc|Hc].
    + destruct (B1 i Hc) as (Oi & Hi1 & id & Bi). exists id, (Some (bd i)), None. split; [exact Bi|]. split; [intros d [= <-]; exists (bp i); auto|].
      right. left. split; [reflexivity|]. exists (bd i). split; [reflexivity|]. unfold tgt. apply Nat.ltb_lt in Hc. rewrite Hc, Hm, <- Hbp by lia. exact Hi1.
    + destruct (D1 i ltac:(lia)) as (id & tri & base & jd & A1 & A2 & A3). exists id, tri, (Some jd). split; [exact A3|].
      split. { destruct (Hid i ltac:(lia)) as (id' & tri' & A1' & Gd). rewrite A1' in A1. injection A1 as <- <- <-. exact Gd. }
      right. right. exists ((i - cutoff) mod cutoff)%nat, jd. split; [apply Nat.mod_upper_bound, H0|]. split; [reflexivity|]. split; [rewrite O1; exact A2|].
      assert (Hj : ((i - cutoff) mod cutoff < n)%nat) by (pose proof (Nat.mod_upper_bound (i - cutoff) cutoff H0); lia).
      unfold tgt, tlog. destruct (Nat.ltb_spec i cutoff); [lia|]. rewrite Hbp, <- Hm by exact Hj.
      apply exact_swaps. apply Hmu. apply Hq. right. apply in_or_app. left. apply nth_In. rewrite (sh_pop _ _ _ Hs). exact Hj.
  - intros i Hi. rewrite Hm1 by lia. rewrite (proj1 (G12 i ltac:(lia))). unfold tgt. apply Nat.ltb_lt in Hi as Hi'. rewrite Hi', Hbp. apply Hm. lia.
  - intros k Hk. destruct (Hid k ltac:(lia)) as (id & tri & A & Gd). exists id, tri. split; [|exact Gd]. rewrite R1 by lia. exact A.
Qed.

(** * simple *)
Definition held (n : nat) (c : core (keeper T)) : Prop :=
  wf n (c_ev c) /\ forall i, (i < n)%nat -> holdsat (c_ev c) i (nth i (members c) []) (nth i (c_fits c) f0).
Lemma update_held n q sw (c c' : core (keeper T)) : shape n q c -> held n c -> update_fitnesses ev sw c = Some c' -> held n c'.
Proof.
  intros Hs [W H] E. apply (update_together n q sw c c' Hs W) in E as ((W' & _) & E). split; [exact W'|].
  intros i Hi. destruct (E i Hi) as (k & Hk & K1 & K2 & K3). rewrite K1, K2. destruct (H k Hk) as (Ok & id & d & A & B). split; [exact Ok|]. exists id, d. rewrite K3. auto.
Qed.
Lemma combine_snd {A B} (a : list A) (b : list B) : length a = length b -> map snd (combine a b) = b.
Proof. revert b; induction a as [|x a IH]; intros [|y b] L; try discriminate; [reflexivity|]. cbn [combine map snd]. f_equal. apply IH. cbn in L; lia. Qed.
Lemma result_in r i f : result r i = Some f -> In (i, f) r.
Proof. induction r as [|[j g] r IH]; [discriminate|]. rewrite result_cons. destruct (Nat.eqb_spec j i) as [->|N]; [intros [= ->]; left; reflexivity|right; auto]. Qed.
Lemma update_fits n q sw (c c' : core (keeper T)) : shape n q c -> update_fitnesses ev sw c = Some c' -> Permutation (c_fits c') (c_fits c).
Proof.
  intros Hs E. destruct (update_rel ev sw c c' n q Hs E) as (U1 & _ & _ & _ & _ & _ & U7 & _). apply (Permutation_map snd) in U7.
  rewrite !combine_snd in U7; [exact U7|rewrite (sh_pop _ _ _ Hs), (sh_fits _ _ _ Hs); reflexivity|rewrite (sh_pop _ _ _ U1), (sh_fits _ _ _ U1); reflexivity].
Qed.
Theorem simple_held cutoff mu s sw n (c c' : core (keeper T)) r : (cutoff <> 0)%nat -> shape n l c -> in_square c -> mutator_ok mu -> valid_schedule n s ->
  held n c -> simple_step ev cutoff mu s sw c = Some (c', r) -> held n c' /\ (forall i, (i < cutoff)%nat -> result r i = Some (nth i (c_fits c) f0) /\ In (nth i (c_fits c) f0) (c_fits c')) /\
  forall f, In f (c_fits c') -> exists i, In (i, f) r.
Proof.
  intros H0 Hs Hq Hmu Hv [W Hh]. unfold simple_step.
  destruct (new_generation ev mu cutoff (length (c_pop c)) c) as [c1|] eqn:E1; [|discriminate].
  rewrite (sh_pop _ _ _ Hs) in E1.
  pose proof (new_generation_shape ev mu cutoff n n l c c1 H0 Hs Hq Hmu E1) as (G1 & G2 & G3 & G4 & G5 & G6 & G7 & G8 & _).
  destruct (generation_pend mu cutoff n n c c1 H0 Hs Hq Hmu W (fun i _ Hi => Hh i Hi) (fun i Hi => holdsat_idle _ _ _ _ (Hh i Hi)) E1 (fun i => nth i (members c) []) (fun _ => eq_refl)) as (bd & W1 & B1 & F1 & P1 & M1 & _).
  unfold simple_calc. destruct (length (c_pop c1) =? 0)%nat; [discriminate|].
  destruct (do_acts ev s (c1, [])) as [[c2 r2]|] eqn:E2; [|discriminate].
  pose proof (gather ev n s c1 c2 r2 Hv E2) as (Sc & _).
  apply (acts_hold n n cutoff _ bd c1 s c2 r2 G8 (le_n n) W1 B1 P1) in E2 as (W2 & B2 & O2 & D2 & _); [|intros i Hi _; apply M1, Hi|exact Hv].
  destruct (update_fitnesses ev sw c2) as [c3|] eqn:E3; cbn [option_map]; [|discriminate]. intros H; inversion H; subst r c'; clear H.
  pose proof (static_shape n l c1 c2 Sc G1) as Hs2. pose proof (update_fits n l sw c2 c3 Hs2 E3) as Pf.
  apply (update_held n l) in E3; [split|exact Hs2|].
  - exact E3.
  - split.
    + intros i Hi. destruct (D2 i ltac:(lia)) as (R1 & _ & R3).
      assert (Ef : Some (nth i (c_fits c2) f0) = Some (nth i (c_fits c) f0)) by (rewrite <- (R3 Hi); apply F1, Hi). rewrite R1. split; [exact Ef|].
      injection Ef as <-. eapply Permutation_in; [apply Permutation_sym, Pf|]. apply nth_In. rewrite (sh_fits _ _ _ Hs2). lia.
    + intros f Hf. apply (Permutation_in _ Pf) in Hf. apply (In_nth _ _ f0) in Hf as (i & Hi & <-). rewrite (sh_fits _ _ _ Hs2) in Hi. exists i. apply result_in, D2, Hi.
  - split; [exact W2|]. intros i Hi. rewrite (static_members c1 c2 Sc), members_nth by (rewrite (sh_pop _ _ _ G1); exact Hi). apply D2, Hi.
Qed.
Lemma new_keeper_at n i : (i < n)%nat -> b_at (new_keeper T n) i = Some (i, (None, None)).
Proof.
  intros Hi. apply b_at_some. unfold new_keeper. cbn [b_order b_funs]. split.
  - rewrite (nth_error_nth' _ 0%nat) by (rewrite seq_length; exact Hi). rewrite seq_nth by exact Hi. reflexivity.
  - apply (nth_error_repeat (None, None)). exact Hi.
Qed.
Lemma new_keeper_wf n : wf n (new_keeper T n).
Proof.
  constructor; [apply seq_NoDup|apply seq_length|]. intros i Hi. exists i, (None, None). apply new_keeper_at, Hi.
Qed.
Lemma init_pend groups n (c : core (keeper T)) : init_core groups (new_keeper T n) = Some c -> length groups = n -> Forall (fun g => length g = l /\ Forall pt_in_unit g) groups ->
  forall bp i, (i < n)%nat -> pend 0 bp (c_ev c) i (buf c (nth i (c_pop c) 0%nat)) (nth i (c_muts c) []).
Proof.
  intros E L Hf bp i Hi. apply (init_core_spec groups _ c l) in E as (G1 & G2 & G3 & G4 & G5 & G6 & G7); [|exact Hf].
  split.
  - rewrite <- members_nth by (rewrite (sh_pop _ _ _ G1); lia). rewrite G3. rewrite Forall_forall in Hf. apply Hf, nth_In. lia.
  - exists i, None, None. rewrite G5. split; [apply new_keeper_at, Hi|]. split; [intros d; discriminate|]. auto.
Qed.
Variable inh : T.
Theorem new_simple_held groups s sw n (c : core (keeper T)) r : length groups = n -> Forall (fun g => length g = l /\ Forall pt_in_unit g) groups -> valid_schedule n s ->
  new_simple ev groups (new_keeper T n) s sw = Some (c, r) -> held n c /\ forall f, In f (c_fits c) -> exists i, In (i, f) r.
Proof.
  intros L Hf Hv. unfold new_simple. destruct (init_core groups (new_keeper T n)) as [c1|] eqn:E1; [|discriminate].
  pose proof (init_core_spec groups _ c1 l E1 Hf) as (G1 & G2 & G3 & G4 & G5 & G6 & G7). rewrite L in G1.
  unfold simple_calc. destruct (length (c_pop c1) =? 0)%nat; [discriminate|].
  destruct (do_acts ev s (c1, [])) as [[c2 r2]|] eqn:E2; [|discriminate].
  pose proof (gather ev n s c1 c2 r2 Hv E2) as (Sc & _).
  destruct (update_fitnesses ev sw c2) as [c3|] eqn:E3; cbn [option_map]; [|discriminate]. intros H; inversion H; subst r c3; clear H.
  assert (Hn : (0 < n)%nat) by (destruct groups; [discriminate|cbn in L; lia]).
  apply (acts_hold n n 0 (fun _ => []) (fun _ => inh) c1 s c2 r2) in E2 as (W2 & _ & _ & D2 & _); try lia; try assumption.
  - pose proof (static_shape n l c1 c2 Sc G1) as Hs2. split; [|intros f Hff; apply (Permutation_in _ (update_fits n l sw c2 c Hs2 E3)) in Hff; apply (In_nth _ _ f0) in Hff as (i & Hi & <-); rewrite (sh_fits _ _ _ Hs2) in Hi; exists i; apply result_in, D2, Hi].
    apply (update_held n l sw c2 c); [exact Hs2| |exact E3].
    split; [exact W2|]. intros i Hi. rewrite (static_members c1 c2 Sc), members_nth by (rewrite (sh_pop _ _ _ G1); exact Hi). apply D2, Hi.
  - rewrite G5. apply new_keeper_wf.
  - intros j Hj. lia.
  - apply (init_pend groups n c1 E1 L Hf).
Qed.

(** * modifiedGenetic *)
Definition pos (f : f64) : bool := flt f0 f.
Definition held_or_idle (e : keeper T) (i : nat) (pts : list npoint) (f : f64) (r : results) : Prop :=
  (holdsat e i pts f /\ In (i, f) r) \/ (f = f0 /\ idle e i).
Lemma apply_okp ms pts pts' : NoDup (map m_idx ms) -> okp pts -> Forall (fun m => pt_in_unit (m_new m)) ms -> apply_muts ms pts = Some pts' -> okp pts'.
Proof.
  intros N [L U] F A. destruct (apply_muts_spec ms pts pts' N A) as (H1 & H2 & H3). split; [congruence|].
  apply Forall_forall. intros p Hp. apply In_nth_error in Hp as [k Hk]. destruct (in_dec Nat.eq_dec k (map m_idx ms)) as [I|I].
  - apply in_map_iff in I as (m & <- & Hm). rewrite (H3 m Hm) in Hk. injection Hk as <-. rewrite Forall_forall in F. apply F, Hm.
  - rewrite (H2 k I) in Hk. apply nth_error_In in Hk. rewrite Forall_forall in U. apply U, Hk.
Qed.
Definition ben_ok (cutoff : nat) (bp : nat -> list npoint) (ben : list bmuts) : Prop := forall b, (b < cutoff)%nat ->
  NoDup (idxs (nth b ben [])) /\ forall m i, In (m, i) (nth b ben []) -> nth_error (bp b) (m_idx m) = Some (m_old m) /\ pt_in_unit (m_new m).
Lemma combine_one_hold cutoff n bp bd i g r g' r' : (cutoff <> 0)%nat -> (cutoff <= i)%nat -> (i < n)%nat -> (cutoff <= n)%nat -> shape n l (g_core g) ->
  wf n (c_ev (g_core g)) -> basis cutoff bp bd (c_ev (g_core g)) -> idle (c_ev (g_core g)) i ->
  (forall b, (b < cutoff)%nat -> buf (g_core g) (nth b (c_pop (g_core g)) 0%nat) = bp b) -> ben_ok cutoff bp (g_ben g) ->
  combine_one ev cutoff i (g, r) = Some (g', r') ->
  wf n (c_ev (g_core g')) /\ basis cutoff bp bd (c_ev (g_core g')) /\
  (forall k, (k < n)%nat -> k <> i -> b_at (c_ev (g_core g')) k = b_at (c_ev (g_core g)) k) /\
  held_or_idle (c_ev (g_core g')) i (buf (g_core g') (nth i (c_pop (g_core g)) 0%nat)) (nth i (c_fits (g_core g')) f0) r' /\ (forall x, In x r -> In x r').
Proof.
  intros H0 Hci Hi Hcn Hs W B Hid Hbp Hok. destruct g as [c ben]. cbn [g_core g_ben] in *. unfold combine_one. cbn [g_core g_ben].
  destruct (put i [] (c_muts c)) as [m0|] eqn:Em; [|discriminate]. apply put_inv in Em as [Hm ->].
  unfold get_base. destruct (Nat.eqb_spec cutoff 0) as [|_]; [discriminate|].
  destruct (nth_error (c_pop c) i) as [a|] eqn:Ea; [|discriminate].
  destruct (nth_error ben (i mod cutoff)) as [bm|] eqn:Eb; [|discriminate].
  pose proof (Nat.mod_upper_bound i cutoff H0) as Hmb.
  assert (Hai : nth i (c_pop c) 0%nat = a) by (apply nth_error_nth, Ea).
  assert (Har : (a < length (c_store c))%nat) by (apply (sh_range _ _ _ Hs); right; apply in_or_app; left; apply (nth_error_In _ _ Ea)).
  assert (Hbm : nth (i mod cutoff) ben [] = bm) by (apply nth_error_nth, Eb).
  destruct bm as [|b0 bt].
  - destruct (put i f0 (c_fits c)) as [fs|] eqn:Ef; cbn [option_map]; [|discriminate]. apply put_inv in Ef as [Hf ->].
    intros H; inversion H; subst g' r'; clear H. cbn [g_core g_ben with_muts with_fits c_ev].
    split; [exact W|]. split; [exact B|]. split; [reflexivity|]. split; [|auto]. right. split; [|exact Hid].
    cbn [c_fits with_muts with_fits]. rewrite nth_set_nth, Nat.eqb_refl, (proj2 (Nat.ltb_lt _ _) Hf). reflexivity.
  - set (bm := b0 :: bt) in *. destruct (Hok _ Hmb) as [Nd Hb]. rewrite Hbm in Nd, Hb.
    destruct (nth_error (c_pop c) (i mod cutoff)) as [ab|] eqn:Eab; [|discriminate].
    destruct (ev_base ev (c_ev c) i (i mod cutoff)) as [e1|] eqn:Ebase; [|discriminate].
    unfold buf_set. destruct (length (nth a (c_store c) []) =? length (nth ab (c_store c) []))%nat; [|discriminate].
    rewrite nth_set_nth, Nat.eqb_refl, (proj2 (Nat.ltb_lt _ _) Har). cbn [andb].
    destruct (apply_muts (map fst bm) (nth ab (c_store c) [])) as [pts|] eqn:Eap; [|discriminate].
    destruct (ev_calc ev e1 i pts (map fst bm)) as [[e2 f]|] eqn:Ec; [|discriminate].
    destruct (put i f (c_fits c)) as [fs|] eqn:Ef; [|discriminate]. apply put_inv in Ef as [Hf ->].
    destruct (ev_update ev e2 i) as [e3|] eqn:Eu; [|discriminate].
    intros H; inversion H; subst g' r'; clear H. cbn [g_core g_ben with_muts with_fits with_store with_ev c_ev].
    cbn [keep_ev ev_update] in Eu. destruct (b_at e2 i); [|discriminate]. injection Eu as <-.
    assert (Hbb : nth ab (c_store c) [] = bp (i mod cutoff)%nat) by (rewrite <- Hbp by exact Hmb; unfold buf; rewrite (nth_error_nth _ _ 0%nat Eab); reflexivity).
    rewrite Hbb in Eap.
    destruct (base_step n cutoff bp bd (c_ev c) i (i mod cutoff) e1 W Hci Hi Hmb B Ebase) as (W1 & B1 & O1 & K1 & id & tri & base & jd & A1 & A2 & A3).
    destruct (B1 _ Hmb) as (Okb & _).
    assert (Hmm : forall m, In m (map fst bm) -> nth_error (bp (i mod cutoff)%nat) (m_idx m) = Some (m_old m) /\ pt_in_unit (m_new m)).
    { intros m I. apply in_map_iff in I as ([m' k] & <- & I). apply (Hb m' k I). }
    assert (Nd' : NoDup (map m_idx (map fst bm))) by (rewrite map_map; exact Nd).
    destruct (calc_step n cutoff bp bd e1 i pts (map fst bm) e2 f W1 Hcn Hi B1) as (W2 & B2 & O2 & H2 & K2 & _); [|lia|exact Ec|].
    { split; [apply (apply_okp (map fst bm) (bp (i mod cutoff)%nat)); [exact Nd'|exact Okb|apply Forall_forall; intros m I; apply Hmm, I|exact Eap]|].
      exists id, tri, (Some jd). split; [exact A3|]. split.
      - destruct Hid as (id' & tri' & A1' & Gd). rewrite A1' in A1. injection A1 as <- <- <-. exact Gd.
      - right. right. exists (i mod cutoff)%nat, jd. split; [exact Hmb|]. split; [reflexivity|]. split; [rewrite O1; exact A2|].
        apply apply_swaps; [exact Nd'|intros m I; apply Hmm, I|exact Eap]. }
    split; [exact W2|]. split; [exact B2|]. split; [intros k Hk N; rewrite K2, K1 by assumption; reflexivity|].
    split; [left|intros x I; right; exact I]. unfold buf. cbn [c_store with_muts with_fits with_ev with_store c_fits].
    rewrite Hai, set_nth_twice, nth_set_nth, Nat.eqb_refl, (proj2 (Nat.ltb_lt _ _) Har). cbn [andb].
    rewrite nth_set_nth, Nat.eqb_refl, (proj2 (Nat.ltb_lt _ _) Hf). cbn [andb]. split; [exact H2|left; reflexivity].
Qed.
Lemma combine_muts_hold cutoff n bp bd m : (cutoff <> 0)%nat -> (cutoff <= n)%nat -> forall i g r g' r', (cutoff <= i)%nat -> (i + m = n)%nat -> shape n l (g_core g) ->
  wf n (c_ev (g_core g)) -> basis cutoff bp bd (c_ev (g_core g)) -> (forall k, (i <= k < n)%nat -> idle (c_ev (g_core g)) k) ->
  (forall b, (b < cutoff)%nat -> buf (g_core g) (nth b (c_pop (g_core g)) 0%nat) = bp b) -> ben_ok cutoff bp (g_ben g) -> (forall b, NoDup (idxs (nth b (g_ben g) []))) ->
  (forall k, (k < i)%nat -> held_or_idle (c_ev (g_core g)) k (buf (g_core g) (nth k (c_pop (g_core g)) 0%nat)) (nth k (c_fits (g_core g)) f0) r) ->
  combine_muts ev cutoff m i (g, r) = Some (g', r') ->
  wf n (c_ev (g_core g')) /\ c_pop (g_core g') = c_pop (g_core g) /\ (forall k, (k < i)%nat -> nth k (c_fits (g_core g')) f0 = nth k (c_fits (g_core g)) f0) /\ (forall x, In x r -> In x r') /\
  (forall k, (k < n)%nat -> held_or_idle (c_ev (g_core g')) k (buf (g_core g') (nth k (c_pop (g_core g)) 0%nat)) (nth k (c_fits (g_core g')) f0) r').
Proof.
  intros H0 Hcn. induction m as [|m IH]; intros i g r g' r' Hci Him Hs W B Hid Hbp Hok Hnd Hdone; cbn [combine_muts].
  - intros H; inversion H; subst g' r'. split; [exact W|]. split; [reflexivity|]. split; [reflexivity|]. split; [auto|]. intros k Hk. apply Hdone. lia.
  - destruct (combine_one ev cutoff i (g, r)) as [[g1 r1]|] eqn:E1; [|discriminate]. intros H.
    pose proof (combine_one_spec ev cutoff n l i g r g1 r1 Hs ltac:(lia) E1) as (B1 & B2 & B3 & B4 & B5).
    assert (Hs1 : shape n l (g_core g1)) by (apply (combined_shape ev n l cutoff (g_core g) (g_core g1) (g_ben g) i); try assumption; lia).
    pose proof B2 as (F1 & F2 & F3 & F4 & F5 & F6 & F7 & F8).
    destruct (combine_one_hold cutoff n bp bd i g r g1 r1 H0 Hci ltac:(lia) Hcn Hs W B (Hid i ltac:(lia)) Hbp Hok E1) as (W1 & C1 & K1 & D1 & R1).
    assert (Hkk : forall k, (k < n)%nat -> k <> i -> buf (g_core g1) (nth k (c_pop (g_core g)) 0%nat) = buf (g_core g) (nth k (c_pop (g_core g)) 0%nat)).
    { intros k Hk N. apply B3. intros Heq. apply (nth_pop_inj n l _ _ _ Hs) in Heq; lia. }
    destruct (IH (S i) g1 r1 g' r') as (J1 & J2 & J3 & J4 & J5); try assumption; try lia.
    + intros k Hk. destruct (Hid k ltac:(lia)) as (id & tri & A & Gd). exists id, tri. rewrite K1 by lia. auto.
    + intros b Hb. rewrite F1, Hkk by lia. apply Hbp, Hb.
    + rewrite B1. exact Hok.
    + rewrite B1. exact Hnd.
    + intros k Hk. rewrite F1. destruct (Nat.eq_dec k i) as [->|N]; [exact D1|]. rewrite Hkk, B4 by lia.
      destruct (Hdone k ltac:(lia)) as [[(Ok & id & d & A & X) I]|[Z (id & tri & A & Gd)]].
      * left. split; [|apply R1, I]. split; [exact Ok|]. exists id, d. rewrite K1 by lia. auto.
      * right. split; [exact Z|]. exists id, tri. rewrite K1 by lia. auto.
    + split; [exact J1|]. split; [congruence|]. split; [intros k Hk; rewrite J3, B4 by lia; reflexivity|]. split; [auto|]. intros k Hk. rewrite <- F1. apply J5, Hk.
Qed.
Definition gheld (cutoff n : nat) (c : core (keeper T)) : Prop :=
  wf n (c_ev c) /\ (n - cutoff <= length (filter pos (c_fits c)))%nat /\
  forall k, (k < n)%nat -> (holdsat (c_ev c) k (nth k (members c) []) (nth k (c_fits c) f0) /\ pos (nth k (c_fits c) f0) = true) \/ (nth k (c_fits c) f0 = f0 /\ idle (c_ev c) k).
Lemma nth_skipn_local {A} (d : A) i k (q : list A) : nth k (skipn i q) d = nth (i + k) q d.
Proof. revert q; induction i as [|i IH]; intros q; [reflexivity|]. destruct q as [|a q]; [destruct k; reflexivity|]. cbn [skipn plus nth]. apply IH. Qed.
Lemma filter_le {A} (p : A -> bool) (q : list A) : (length (filter p q) <= length q)%nat.
Proof. induction q as [|a q IH]; [apply le_n|]. cbn [filter]. destruct (p a); cbn [length]; lia. Qed.
Lemma top_positive_all m fits i : sorted fits -> (m <= length (filter pos fits))%nat -> (i < m)%nat -> nth i fits f0 <> f0.
Proof.
  intros Hs Hc Hi E. assert (Hm : (i < length fits)%nat) by (pose proof (filter_le pos fits); lia).
  assert (F : filter pos (skipn i fits) = []).
  { destruct (filter pos (skipn i fits)) as [|x t] eqn:Ex; [reflexivity|]. exfalso.
    assert (I : In x (filter pos (skipn i fits))) by (rewrite Ex; left; reflexivity). apply filter_In in I as [I P].
    apply (In_nth _ _ f0) in I as (k & Hk & <-). rewrite skipn_length in Hk. rewrite nth_skipn_local in P.
    destruct k as [|k]; [rewrite Nat.add_0_r, E in P; discriminate P|].
    specialize (Hs i (i + S k)%nat ltac:(lia)). unfold less in Hs. rewrite E in Hs. unfold pos in P. congruence. }
  rewrite <- (firstn_skipn i fits) in Hc. rewrite filter_app, app_length, F in Hc. cbn [length] in Hc.
  assert (length (filter pos (firstn i fits)) <= i)%nat.
  { etransitivity; [apply filter_le|]. rewrite firstn_length. lia. }
  lia.
Qed.
Lemma top_positive cutoff fits i : sorted fits -> (length fits - cutoff <= length (filter pos fits))%nat -> (2 * cutoff <= length fits)%nat -> (i < cutoff)%nat -> nth i fits f0 <> f0.
Proof. intros Hs Hc H2 Hi. apply (top_positive_all (length fits - cutoff)); [exact Hs|exact Hc|lia]. Qed.
Lemma first_positive m (fits : list f64) : (m <= length fits)%nat -> (forall i, (i < m)%nat -> pos (nth i fits f0) = true) -> (m <= length (filter pos fits))%nat.
Proof.
  revert fits. induction m as [|m IH]; intros fits L H; [lia|]. destruct fits as [|a t]; [cbn in L; lia|]. cbn [filter]. rewrite (H 0%nat ltac:(lia) : pos a = true). cbn [length] in *.
  apply le_n_S, IH; [lia|]. intros i Hi. apply (H (S i)). lia.
Qed.
Lemma filter_perm {A} (p : A -> bool) (a b : list A) : Permutation a b -> length (filter p a) = length (filter p b).
Proof.
  induction 1; cbn [filter]; [reflexivity| | |congruence].
  - destruct (p x); cbn [length]; congruence.
  - destruct (p x), (p y); reflexivity.
Qed.
Lemma update_gheld cutoff n sw (c c' : core (keeper T)) r : shape n l c -> wf n (c_ev c) -> Forall (fun x => pos (snd x) = true) r ->
  (cutoff <= n)%nat -> (forall k, (k < n - cutoff)%nat -> In (k, nth k (c_fits c) f0) r) ->
  (forall k, (k < n)%nat -> held_or_idle (c_ev c) k (nth k (members c) []) (nth k (c_fits c) f0) r) -> update_fitnesses ev sw c = Some c' -> gheld cutoff n c'.
Proof.
  intros Hs W Hp Hcn Hr H E. pose proof (update_rel ev sw c c' n l Hs E) as (U1 & _ & _ & _ & _ & _ & U7 & _).
  apply (update_together n l sw c c' Hs W) in E as ((W' & _) & E). split; [exact W'|]. rewrite Forall_forall in Hp. split.
  - apply (Permutation_map snd) in U7. rewrite !combine_snd in U7; [|rewrite (sh_pop _ _ _ Hs), (sh_fits _ _ _ Hs); reflexivity|rewrite (sh_pop _ _ _ U1), (sh_fits _ _ _ U1); reflexivity].
    rewrite (filter_perm pos _ _ U7). apply first_positive; [rewrite (sh_fits _ _ _ Hs); lia|]. intros i Hi. apply (Hp _ (Hr i Hi)).
  - intros i Hi. destruct (E i Hi) as (k & Hk & K1 & K2 & K3). rewrite K1, K2. destruct (H k Hk) as [[(Ok & id & d & A & B) I]|[Z (id & tri & A & Gd)]].
    + left. split; [|apply (Hp _ I)]. split; [exact Ok|]. exists id, d. rewrite K3. auto.
    + right. split; [exact Z|]. exists id, tri. rewrite K3. auto.
Qed.
Theorem genetic_held cutoff mu s sw n (c : core (keeper T)) ben g' r : (cutoff <> 0)%nat -> (2 * cutoff <= n)%nat -> shape n l c -> in_square c -> mutator_ok mu -> valid_schedule (n - cutoff) s ->
  length ben = cutoff -> gheld cutoff n c -> sorted (c_fits c) -> genetic_step ev cutoff mu s sw (MGen c ben) = Some (g', r) -> Forall (fun x => pos (snd x) = true) r ->
  gheld cutoff n (g_core g') /\ forall i, (i < cutoff)%nat -> In (i, nth i (c_fits c) f0) r /\ In (nth i (c_fits c) f0) (c_fits (g_core g')).
Proof.
  intros H0 H2 Hs Hq Hmu Hv Hben (W & Hcnt & Hk) Hsort. unfold genetic_step. cbn [g_core g_ben]. rewrite (sh_pop _ _ _ Hs).
  destruct (new_generation ev mu cutoff (n - cutoff) c) as [c1|] eqn:E1; [|discriminate].
  pose proof (new_generation_shape ev mu cutoff (n - cutoff) n l c c1 H0 Hs Hq Hmu E1) as (G1 & G2 & G3 & G4 & G5 & G6 & G7 & G8 & G9 & G10 & G11 & G12 & G13 & G14).
  assert (Htop : forall i, (i < cutoff)%nat -> (i < n)%nat -> holdsat (c_ev c) i (nth i (members c) []) (nth i (c_fits c) f0)).
  { intros i Hi Hn. destruct (Hk i Hn) as [[A _]|[A _]]; [exact A|]. exfalso. apply (top_positive cutoff (c_fits c) i Hsort); rewrite ?(sh_fits _ _ _ Hs); try assumption. }
  assert (Hidl : forall i, (i < n)%nat -> idle (c_ev c) i) by (intros i Hi; destruct (Hk i Hi) as [[A _]|[_ A]]; [eapply holdsat_idle, A|exact A]).
  destruct (generation_pend mu cutoff (n - cutoff) n c c1 H0 Hs Hq Hmu W Htop Hidl E1 (fun i => nth i (members c) []) (fun _ => eq_refl)) as (bd & W1 & B1 & F1 & P1 & M1 & I1).
  unfold g_calc. cbn [g_core]. rewrite (sh_pop _ _ _ G1). destruct (Nat.leb_spec n cutoff) as [|Hcn]; [discriminate|].
  destruct (g_acts ev cutoff s (MGen c1 (map (fun _ => []) ben), [])) as [[g2 r2]|] eqn:E2; [|discriminate].
  pose proof (g_acts_core ev cutoff s _ _ _ _ E2) as E2c. cbn [g_core] in E2c.
  pose proof (gather ev (n - cutoff) s c1 (g_core g2) r2 Hv E2c) as (Sc & T1 & _).
  destruct (acts_hold n (n - cutoff) cutoff (fun i => nth i (members c) []) bd c1 s (g_core g2) r2 G8 ltac:(lia) W1 B1 P1 (fun i Hi _ => M1 i Hi) Hv E2c) as (W2 & B2 & O2 & D2 & K2).
  apply (g_gather ev cutoff (n - cutoff) s c1 _ g2 r2) in E2 as (imp & J1 & _ & _); [|exact H0|exact Hv|rewrite map_length; exact Hben|].
  2: { intros b. destruct (nth_in_or_default b (map (fun _ : bmuts => @nil (mut * nat)) ben) []) as [Hi|He]; [|exact He].
       apply in_map_iff in Hi as (x & Hx & _). symmetry. exact Hx. }
  destruct (valid_ordered _ _ Hv) as [_ Hrecv].
  destruct (combine_muts ev cutoff cutoff (n - cutoff) (g2, r2)) as [[g3 r3]|] eqn:E3; [|discriminate].
  assert (Hs2 : shape n l (g_core g2)) by (apply (static_shape n l c1 _ Sc G1)).
  pose proof Sc as (S1 & S2 & S3 & S4 & S5 & S6 & S7 & S8).
  assert (Hnd : forall b, NoDup (idxs (nth b (g_ben g2) []))) by (intros b; apply (ben_nodup _ _ _ _ _ _ _ J1)).
  assert (Hbuf : forall a, buf (g_core g2) a = buf c1 a) by (intros a; unfold buf; rewrite S1; reflexivity).
  assert (Hok : ben_ok cutoff (fun i => nth i (members c) []) (g_ben g2)).
  { intros b Hb. split; [apply Hnd|]. intros m i Hin. destruct J1 as [_ J1]. destruct (J1 b Hb) as (_ & Q & _). destruct (Q m i Hin) as (Q1 & Q2 & Q3 & Q4).
    apply Hrecv in Q1. rewrite (proj2 (G12 i ltac:(lia))) in Q4. unfold tlog in Q4. destruct (Nat.ltb_spec i cutoff) as [|Hi]; [destruct Q4|].
    assert (Hj : ((i - cutoff) mod cutoff = b)%nat). { rewrite <- Q2. replace i with ((i - cutoff) + 1 * cutoff)%nat at 2 by lia. rewrite Nat.mod_add by exact H0. reflexivity. }
    rewrite Hj in Q4. assert (Hu : Forall pt_in_unit (buf c (nth b (c_pop c) 0%nat))).
    { apply Hq. right. apply in_or_app. left. apply nth_In. rewrite (sh_pop _ _ _ Hs). lia. }
    destruct (Hmu i _ Hu) as [El Un]. rewrite members_nth by (rewrite (sh_pop _ _ _ Hs); lia).
    destruct (el_entry _ _ _ El m Q4) as [X1 X2]. split; [exact X1|]. apply nth_error_In in X2. rewrite Forall_forall in Un. apply Un, X2. }
  destruct (combine_muts_hold cutoff n (fun i => nth i (members c) []) bd cutoff H0 G8 (n - cutoff) g2 r2 g3 r3) as (W3 & C2 & C3 & C4 & C5); try assumption; try lia.
  { intros k Hk'. destruct (I1 k ltac:(lia)) as (id & tri & A & Gd). exists id, tri. rewrite K2 by lia. auto. }
  { intros b Hb. rewrite Hbuf, S2. apply M1, Hb. }
  { intros k Hk'. left. rewrite Hbuf, S2. destruct (D2 k Hk') as (R1 & R2 & _). split; [exact R2|apply result_in, R1]. }
  assert (Hs3 : shape n l (g_core g3)).
  { apply (combine_muts_spec ev cutoff n l cutoff H0 G8 (n - cutoff) g2 r2 g3 r3 Hs2 ltac:(lia) Hnd); [|exact E3]. intros b Hb _. lia. }
  destruct (update_fitnesses ev sw (g_core g3)) as [c4|] eqn:E4; cbn [option_map]; [|discriminate].
  intros H Hpos; inversion H; subst g' r; clear H. cbn [g_core g_ben]. split.
  - apply (update_gheld cutoff n sw (g_core g3) c4 r3 Hs3 W3 Hpos ltac:(lia)) in E4; [exact E4| |].
    + intros k Hk'. rewrite C3 by exact Hk'. apply C4, result_in, D2, Hk'.
    + intros k Hk'. rewrite members_nth by (rewrite (sh_pop _ _ _ Hs3); exact Hk'). rewrite C2. apply C5, Hk'.
  - intros i Hi. destruct (D2 i ltac:(lia)) as (R1 & _ & R3).
    assert (Ef : Some (nth i (c_fits (g_core g2)) f0) = Some (nth i (c_fits c) f0)) by (rewrite <- (R3 Hi); apply F1, Hi). injection Ef as Ef. rewrite <- Ef. split; [apply C4, result_in, R1|].
    eapply Permutation_in; [apply Permutation_sym, (update_fits n l sw (g_core g3) c4 Hs3 E4)|]. rewrite <- C3 by lia. apply nth_In. rewrite (sh_fits _ _ _ Hs3). lia.
Qed.
Theorem new_genetic_held cutoff groups s sw n (g : mgen (keeper T)) r : (cutoff <> 0)%nat -> length groups = n -> Forall (fun g => length g = l /\ Forall pt_in_unit g) groups -> valid_schedule (n - cutoff) s ->
  new_genetic ev cutoff groups (new_keeper T n) s sw = Some (g, r) -> Forall (fun x => pos (snd x) = true) r -> gheld cutoff n (g_core g).
Proof.
  intros H0 L Hf Hv. unfold new_genetic. destruct (init_core groups (new_keeper T n)) as [c1|] eqn:E1; [|discriminate].
  pose proof (init_core_spec groups _ c1 l E1 Hf) as (G1 & G2 & G3 & G4 & G5 & G6 & G7). rewrite L in G1.
  unfold g_calc. cbn [g_core]. rewrite (sh_pop _ _ _ G1). destruct (Nat.leb_spec n cutoff) as [|Hcn]; [discriminate|].
  destruct (g_acts ev cutoff s (MGen c1 (repeat [] cutoff), [])) as [[g2 r2]|] eqn:E2; [|discriminate].
  pose proof (g_acts_core ev cutoff s _ _ _ _ E2) as E2c. cbn [g_core] in E2c.
  pose proof (gather ev (n - cutoff) s c1 (g_core g2) r2 Hv E2c) as (Sc & T1 & T2 & _).
  destruct (update_fitnesses ev sw (g_core g2)) as [c3|] eqn:E3; cbn [option_map]; [|discriminate]. intros H; inversion H; subst r g; clear H. cbn [g_core]. intros Hpos.
  pose proof (init_pend groups n c1 E1 L Hf) as HP.
  destruct (acts_hold n (n - cutoff) 0 (fun _ => []) (fun _ => inh) c1 s (g_core g2) r2) as (W2 & _ & _ & D2 & K2); try lia; try assumption.
  - rewrite G5. apply new_keeper_wf.
  - intros j Hj. lia.
  - intros i Hi. apply HP. lia.
  - pose proof (static_shape n l c1 _ Sc G1) as Hs2.
    apply (update_gheld cutoff n sw (g_core g2) c3 r2 Hs2 W2 Hpos ltac:(lia)); [| |exact E3].
    + intros k Hk. apply result_in, D2, Hk.
    + intros k Hk. rewrite (static_members c1 _ Sc). rewrite members_nth by (rewrite (sh_pop _ _ _ G1); exact Hk).
      destruct (Nat.lt_ge_cases k (n - cutoff)) as [Hl|Hl].
      * left. destruct (D2 k Hl) as (R1 & R2 & _). split; [exact R2|apply result_in, R1].
      * right. split; [rewrite T2 by lia; rewrite G7; apply nth_repeat|]. exists k, None. rewrite K2 by lia. rewrite G5. split; [apply new_keeper_at, Hk|intros d; discriminate].
Qed.
End Hold.
