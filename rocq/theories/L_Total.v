(** A Step returns unless the object of a member it evaluates cannot be calculated: [Fnew] and [Fmod] say
    for which points the first calculation, and the one that starts from a member's object, can fail. *)
From Coq Require Import ZArith List Bool Arith Lia Permutation Sorted.
From Flocq Require Import IEEE754.BinarySingleNaN.
From Verif Require Import GoNum M_Norm M_Slice M_Delaunay M_Algo S_Norm S_Algo M_Fitness S_Fitness L_Norm L_Slice L_PMap L_Algo L_Algo2 L_Algo3 L_Algo4 L_Algo5 L_Fit3 L_Hold.
Import ListNotations.

Lemma nth_some {A} (l : list A) i d : (i < length l)%nat -> nth_error l i = Some (nth i l d).
Proof. intros H. apply nth_error_nth', H. Qed.
Lemma put_some {A} (l : list A) i v : (i < length l)%nat -> put i v l = Some (set_nth i v l).
Proof. intros H. unfold put. rewrite (proj2 (Nat.ltb_lt _ _) H). reflexivity. Qed.
Lemma swap_some {A} (l : list A) i j : (i < length l)%nat -> (j < length l)%nat -> exists l', swap_at i j l = Some l' /\ length l' = length l.
Proof.
  intros Hi Hj. unfold swap_at. destruct (nth_error l i) eqn:Ei; [|apply nth_error_None in Ei; lia]. destruct (nth_error l j) eqn:Ej; [|apply nth_error_None in Ej; lia].
  eexists. split; [reflexivity|]. rewrite !set_nth_length. reflexivity.
Qed.
Lemma apply_some ms : forall (pts : list npoint), (forall m, In m ms -> (m_idx m < length pts)%nat) -> exists pts', apply_muts ms pts = Some pts'.
Proof.
  induction ms as [|m ms IH]; intros pts H; [exists pts; reflexivity|]. rewrite apply_muts_cons, put_some by (apply H; left; reflexivity).
  apply IH. intros x Hx. rewrite set_nth_length. apply H. right. exact Hx.
Qed.

Section Total.
Context {T : Type} (next : option T -> option T -> list npoint -> list mut -> option T) (fit : T -> option f64)
  (holds : list npoint -> T -> Prop) (l : nat).
Notation okp := (okp l).
Hypothesis Hnew : forall base pts log d, okp pts -> next None base pts log = Some d -> holds pts d.
Hypothesis Hkeep : forall d pts log, next (Some d) None pts log = Some d.
Hypothesis Hmod : forall q d q' o pts log d', okp q -> holds q d -> okp q' -> holds q' o -> okp pts -> swaps_out q' pts log ->
  next (Some d) (Some o) pts log = Some d' -> holds pts d'.
Context (Fnew : list npoint -> Prop) (Fmod : list npoint -> list npoint -> Prop).
Hypothesis Tnew : forall base pts log, okp pts -> (exists d, next None base pts log = Some d) \/ Fnew pts.
Hypothesis Tmod : forall q d q' o pts log, okp q -> holds q d -> okp q' -> holds q' o -> okp pts -> swaps_out q' pts log ->
  (exists d', next (Some d) (Some o) pts log = Some d') \/ Fmod q' pts.
(** The points [pts] cannot be evaluated: neither anew nor from the object of one of the nb members kept. *)
Definition fails (nb : nat) (bp : nat -> list npoint) (pts : list npoint) : Prop := Fnew pts \/ exists j, (j < nb)%nat /\ Fmod (bp j) pts.
Hypothesis Tfit : forall pts d, okp pts -> holds pts d -> exists f, fit d = Some f.
Notation ev := (keep_ev next fit).
Notation basis := (basis holds l). Notation pend := (pend holds l). Notation cinv := (cinv fit holds l).
Notation holdsat := (holdsat fit holds l). Notation idle := (idle holds l).

Lemma calc_total n nb bp bd e i pts log : wf n e -> (nb <= n)%nat -> (i < n)%nat -> basis nb bp bd e -> pend nb bp e i pts log ->
  (exists e' f, ev_calc ev e i pts log = Some (e', f)) \/ ((nb <= i)%nat /\ fails nb bp pts).
Proof.
  intros W Hnb Hi B (Ok & id & tri & base & Ea & G & P). cbn [keep_ev ev_calc]. rewrite Ea.
  assert (Es : match base with Some b => (b =? id)%nat | None => false end = false).
  { destruct base as [b|]; [|reflexivity]. destruct P as [[P _]|[[P _]|(j & jd & Hj & [= <-] & Ej & _)]]; try discriminate.
    destruct (Nat.eqb_spec b id) as [->|]; [|reflexivity]. exfalso. apply b_at_some in Ea as Ea'. destruct Ea' as [E1 _].
    assert (i = j) by (apply (proj1 (NoDup_nth_error _) (wf_nd _ _ W)); [rewrite (wf_len _ _ W); exact Hi|congruence]). subst j.
    destruct (B i Hj) as (_ & _ & k & Bk). rewrite Bk in Ea. discriminate. }
  rewrite Es. cbv zeta.
  assert (X : (exists d, next tri match base with None => None | Some b => match nth_error (b_funs e) b with None => None | Some g => fst g end end pts log = Some d /\ holds pts d) \/ (nb <= i)%nat /\ fails nb bp pts).
  { assert (Hge : (forall d0, tri = Some d0 -> base <> None) -> (nb <= i)%nat).
    { intros K. destruct (Nat.le_gt_cases nb i) as [|Hlt]; [assumption|]. exfalso. destruct (B i Hlt) as (_ & _ & k & Bk). rewrite Bk in Ea. injection Ea as _ <- <-. apply (K _ eq_refl), eq_refl. }
    destruct P as [(-> & ->)|[(-> & d0 & -> & Hh)|(j & jd & Hj & -> & Ej & Hs)]].
    - destruct (Tnew None pts log Ok) as [(d & E)|Fa].
      + left. exists d. split; [exact E|]. eapply Hnew; eauto.
      + right. split; [apply Hge; discriminate|left; exact Fa].
    - left. exists d0. split; [apply Hkeep|exact Hh].
    - destruct (B j Hj) as (Oj & Hh & jd' & Bj). apply b_at_some in Bj as [B1 B2]. rewrite Ej in B1. injection B1 as <-. rewrite B2. cbn [fst].
      destruct tri as [d0|].
      + destruct (G d0 eq_refl) as (q & Oq & Hq). destruct (Tmod q d0 (bp j) (bd j) pts log Oq Hq Oj Hh Ok Hs) as [(d & E)|Fa].
        * left. exists d. split; [exact E|]. eapply (Hmod q d0 (bp j)); eauto.
        * right. split; [apply Hge; discriminate|right; exists j; auto].
      + destruct (Tnew (Some (bd j)) pts log Ok) as [(d & E)|Fa].
        * left. exists d. split; [exact E|]. eapply Hnew; eauto.
        * right. split; [apply Hge; discriminate|left; exact Fa]. }
  destruct X as [(d & -> & Hd)|Fa]; [|right; exact Fa]. left. destruct (Tfit pts d Ok Hd) as (f & ->). cbn [option_map]. eauto.
Qed.
Lemma base_total n e i j : wf n e -> (i < n)%nat -> (j < n)%nat -> exists e', ev_base ev e i j = Some e' /\ wf n e'.
Proof.
  intros W Hi Hj. destruct (wf_at _ _ W i Hi) as (id & [tri b] & Ei). destruct (wf_at _ _ W j Hj) as (jd & [trj b'] & Ej).
  cbn [keep_ev ev_base]. rewrite Ei, Ej. eexists. split; [reflexivity|]. eapply wf_set; eauto.
Qed.

(** newGeneration *)
Definition fine (n : nat) (c : core (keeper T)) : Prop := shape n l c /\ in_square c.
Lemma fine_set n c a pts m : fine n c -> okp pts -> length m = n -> fine n (with_muts (with_store c (set_nth a pts (c_store c))) m).
Proof.
  intros [[S1 S2 S3 S4 S5 S6 S7] Q] [L U] Lm. split.
  - constructor; cbn [with_muts with_store c_pop c_newpop c_fits c_muts c_best c_store]; try assumption.
    + intros b Hb. rewrite set_nth_length. apply S6, Hb.
    + intros b Hb. rewrite nth_set_nth. destruct ((a =? b)%nat && (a <? length (c_store c))%nat); [exact L|apply S7, Hb].
  - intros b. cbn [with_muts with_store c_pop c_newpop c_best c_store]. intros Hb. rewrite nth_set_nth.
    destruct ((a =? b)%nat && (a <? length (c_store c))%nat); [exact U|apply Q, Hb].
Qed.
Lemma fine_ev n c e : fine n c -> fine n (with_ev c e).
Proof. intros [[S1 S2 S3 S4 S5 S6 S7] Q]. split; [constructor; assumption|exact Q]. Qed.
Lemma fine_at n c i : fine n c -> (i < n)%nat -> okp (buf c (nth i (c_pop c) 0%nat)) /\ okp (buf c (nth i (c_newpop c) 0%nat)).
Proof.
  intros [S Q] Hi.
  assert (I1 : In (nth i (c_pop c) 0%nat) (c_best c :: c_pop c ++ c_newpop c)) by (right; apply in_or_app; left; apply nth_In; rewrite (sh_pop _ _ _ S); exact Hi).
  assert (I2 : In (nth i (c_newpop c) 0%nat) (c_best c :: c_pop c ++ c_newpop c)) by (right; apply in_or_app; right; apply nth_In; rewrite (sh_new _ _ _ S); exact Hi).
  split; (split; [apply (sh_points _ _ _ S); assumption|apply Q; assumption]).
Qed.
Lemma copy_total n i j c : fine n c -> (i < n)%nat -> (j < n)%nat -> exists c', copy_member i j c = Some c' /\ fine n c' /\ c_ev c' = c_ev c.
Proof.
  intros Fc Hi Hj. pose proof Fc as [S Q]. unfold copy_member.
  rewrite (nth_some (c_newpop c) i 0%nat) by (rewrite (sh_new _ _ _ S); exact Hi). rewrite (nth_some (c_pop c) j 0%nat) by (rewrite (sh_pop _ _ _ S); exact Hj).
  rewrite put_some by (rewrite (sh_muts _ _ _ S); exact Hi). destruct (fine_at n c i Fc Hi) as [_ [Li Ui]]. destruct (fine_at n c j Fc Hj) as [Oj _].
  unfold buf_set. fold (buf c (nth i (c_newpop c) 0%nat)) (buf c (nth j (c_pop c) 0%nat)). rewrite Li, (proj1 Oj), Nat.eqb_refl. cbn [option_map]. eexists. split; [reflexivity|]. split; [|reflexivity].
  apply fine_set; [exact Fc|exact Oj|rewrite set_nth_length; apply S].
Qed.
Lemma new_total mu n i j c : mutator_ok mu -> fine n c -> wf n (c_ev c) -> (i < n)%nat -> (j < n)%nat -> exists c', new_member ev mu i j c = Some c' /\ fine n c' /\ wf n (c_ev c').
Proof.
  intros Hmu Fc W Hi Hj. unfold new_member. destruct (copy_total n i j c Fc Hi Hj) as (c1 & -> & F1 & V1). rewrite V1.
  destruct (base_total n (c_ev c) i j W Hi Hj) as (e & -> & We). pose proof F1 as [S1 _].
  rewrite (nth_some (c_newpop c1) i 0%nat) by (rewrite (sh_new _ _ _ S1); exact Hi).
  destruct (fine_at n c1 i F1 Hi) as [_ [Li Ui]]. destruct (Hmu i _ Ui) as [Xl Xu]. destruct (mu i _) as [pts log]. cbn [fst snd] in Xl, Xu.
  eexists. split; [reflexivity|]. split; [|exact We].
  apply fine_ev, (fine_set n c1 (nth i (c_newpop c1) 0%nat) pts (set_nth i log (c_muts c1)) F1); [|rewrite set_nth_length; apply S1].
  split; [rewrite (el_length _ _ _ Xl); exact Li|exact Xu].
Qed.
Lemma keep_total n m : forall i c, fine n c -> (i + m <= n)%nat -> exists c', keep_bases m i c = Some c' /\ fine n c' /\ c_ev c' = c_ev c.
Proof.
  induction m as [|m IH]; intros i c Fc Hi; cbn [keep_bases]; [eauto|]. destruct (copy_total n i i c Fc ltac:(lia) ltac:(lia)) as (c1 & -> & F1 & V1).
  destruct (IH (S i) c1 F1 ltac:(lia)) as (c' & E & F' & V'). exists c'. rewrite E. split; [reflexivity|]. split; [exact F'|congruence].
Qed.
Lemma inner_total mu n lim m : mutator_ok mu -> (lim <= n)%nat -> forall j i c, fine n c -> wf n (c_ev c) -> (j + m <= n)%nat ->
  exists c' i', inner_loop ev mu m j i lim c = Some (c', i') /\ fine n c' /\ wf n (c_ev c') /\ (i <= i')%nat /\ (0 < m -> i < lim -> i < i')%nat.
Proof.
  intros Hmu Hl. induction m as [|m IH]; intros j i c Fc W Hj; cbn [inner_loop]; [exists c, i; repeat (split; [assumption || reflexivity|]); lia|].
  destruct (Nat.ltb_spec i lim) as [Hi|Hi]; [|exists c, i; repeat (split; [assumption || reflexivity|]); lia].
  destruct (new_total mu n i j c Hmu Fc W ltac:(lia) ltac:(lia)) as (c1 & -> & F1 & W1). destruct (IH (S j) (S i) c1 F1 W1 ltac:(lia)) as (c' & i' & E & F' & W' & I1 & I2).
  exists c', i'. rewrite E. repeat (split; [assumption || reflexivity|]). lia.
Qed.
Lemma outer_total mu cutoff n lim fuel : mutator_ok mu -> (cutoff <> 0)%nat -> (cutoff <= n)%nat -> (lim <= n)%nat -> forall i c, fine n c -> wf n (c_ev c) -> (lim <= i + fuel)%nat ->
  exists c', outer_loop ev fuel mu cutoff i lim c = Some c' /\ fine n c' /\ wf n (c_ev c').
Proof.
  intros Hmu H0 Hcn Hl. induction fuel as [|fuel IH]; intros i c Fc W Hf; cbn [outer_loop]; (destruct (Nat.ltb_spec i lim) as [Hi|Hi]; [|eauto]); [lia|].
  destruct (inner_total mu n lim cutoff Hmu Hl 0 i c Fc W ltac:(lia)) as (c1 & i1 & -> & F1 & W1 & I1 & I2). apply IH; [exact F1|exact W1|lia].
Qed.
Lemma generation_total mu cutoff lim n c : mutator_ok mu -> (cutoff <> 0)%nat -> (cutoff <= n)%nat -> (lim <= n)%nat -> shape n l c -> in_square c -> wf n (c_ev c) ->
  exists c', new_generation ev mu cutoff lim c = Some c'.
Proof.
  intros Hmu H0 Hcn Hl S Q W. unfold new_generation. destruct (keep_total n cutoff 0 c (conj S Q) ltac:(lia)) as (c1 & -> & F1 & V1).
  assert (W1 : wf n (c_ev c1)) by (rewrite V1; exact W).
  destruct (outer_total mu cutoff n lim lim Hmu H0 Hcn Hl cutoff c1 F1 W1 ltac:(lia)) as (c2 & -> & _). eauto.
Qed.

(** calculateFitnesses *)
Lemma act_total n lim nb bp bd c0 p c r a : shape n l c0 -> (nb <= n)%nat -> (lim <= n)%nat ->
  (forall i, (i < lim)%nat -> pend nb bp (c_ev c0) i (buf c0 (nth i (c_pop c0) 0%nat)) (nth i (c_muts c0) [])) ->
  ~ In a p -> (forall i, a = Calc i -> (i < lim)%nat) -> (forall i, a = Recv i -> (i < lim)%nat /\ In (Calc i) p) ->
  prefix_inv ev c0 p c r -> cinv n lim nb bp bd c0 p c r -> (exists c' r', do_act ev (c, r) a = Some (c', r')) \/ exists i, (nb <= i < lim)%nat /\ fails nb bp (buf c0 (nth i (c_pop c0) 0%nat)).
Proof.
  intros Sh Hnb Hlim HP Hna Hal Har ((S1 & S2 & S3 & S4 & S5 & S6 & S7 & S8) & P1 & _) [W B O Td Dn]. unfold do_act. destruct a as [|i|i].
  - left. cbn [keep_ev ev_prepare option_map]. eauto.
  - specialize (Hal i eq_refl). rewrite S2, S5. rewrite (nth_some (c_pop c0) i 0%nat) by (rewrite (sh_pop _ _ _ Sh); lia). rewrite (nth_some (c_muts c0) i []) by (rewrite (sh_muts _ _ _ Sh); lia).
    destruct (calc_total n nb bp bd (c_ev c) i (buf c (nth i (c_pop c0) 0%nat)) (nth i (c_muts c0) []) W Hnb ltac:(lia) B) as [(e' & f & ->)|[Hge Fa]]; [|left; cbn [option_map fst snd]; eauto|right; exists i; split; [lia|]; unfold buf in *; rewrite <- S1; exact Fa].
    unfold buf at 1. rewrite S1. apply (pend_at holds l nb bp (c_ev c0)); [apply Td; [lia|exact Hna]|exact O|apply HP, Hal].
  - destruct (Har i eq_refl) as [Hi Hc]. destruct (P1 i Hc) as (f & ->). rewrite put_some by (rewrite S8, (sh_fits _ _ _ Sh); lia).
    destruct (wf_at _ _ W i ltac:(lia)) as (id & x & Ex). cbn [keep_ev ev_update]. rewrite Ex. cbn [option_map]. left. eauto.
Qed.
Lemma acts_total_aux n lim nb bp bd c0 s : shape n l c0 -> (nb <= n)%nat -> (lim <= n)%nat ->
  (forall i, (i < lim)%nat -> pend nb bp (c_ev c0) i (buf c0 (nth i (c_pop c0) 0%nat)) (nth i (c_muts c0) [])) ->
  (forall i, (i < nb)%nat -> (i < lim)%nat -> buf c0 (nth i (c_pop c0) 0%nat) = bp i) ->
  forall p c r, ordered (p ++ s) -> (forall i, In (Calc i) (p ++ s) -> (i < lim)%nat) -> prefix_inv ev c0 p c r -> cinv n lim nb bp bd c0 p c r ->
  (exists c' r', do_acts ev s (c, r) = Some (c', r')) \/ exists i, (nb <= i < lim)%nat /\ fails nb bp (buf c0 (nth i (c_pop c0) 0%nat)).
Proof.
  intros Sh Hnb Hlim HP HB. induction s as [|a s IH]; intros p c r Ho Hc Hp Hi; cbn [do_acts]; [eauto|].
  replace (p ++ a :: s) with ((p ++ [a]) ++ s) in * by (rewrite <- app_assoc; reflexivity).
  pose proof Ho as [Hnd Ho']. assert (Hna : ~ In a p).
  { intros Hin. rewrite <- app_assoc in Hnd. apply NoDup_remove_2 in Hnd. apply Hnd, in_or_app. auto. }
  assert (Hrc : forall i, a = Recv i -> In (Calc i) p) by (intros i ->; apply (Ho' p i s); rewrite <- app_assoc; reflexivity).
  assert (Hcl : forall i, a = Calc i -> (i < lim)%nat) by (intros i ->; apply Hc; apply in_or_app; left; apply in_or_app; right; left; reflexivity).
  destruct (act_total n lim nb bp bd c0 p c r a Sh Hnb Hlim HP Hna Hcl) as [(c1 & r1 & Ea)|Fa]; [|exact Hp|exact Hi| |right; exact Fa].
  { intros i E. split; [apply Hc, in_or_app; left; apply in_or_app; left; apply Hrc, E|apply Hrc, E]. }
  rewrite Ea. apply (IH (p ++ [a])); [exact Ho|exact Hc| |].
  - apply do_act_inv with (c := c) (r := r); [exact Hrc|exact Hna| |exact Hp|exact Ea].
    intros i Hin. apply in_split in Hin as (l1 & l2 & ->). apply in_or_app. left.
    apply (Ho' l1 i ((l2 ++ [a]) ++ s)). rewrite <- !app_assoc. cbn [app]. rewrite <- ?app_assoc. reflexivity.
  - destruct Hp as ((S1 & S2 & _ & _ & S5 & _) & _). apply (act_hold next fit holds l Hnew Hkeep Hmod n lim nb bp bd c0 p c r a c1 r1 Hnb Hlim HP HB Hna Hcl S1 S2 S5 Hi Ea).
Qed.
Lemma acts_total n lim nb bp bd c s : shape n l c -> (nb <= n)%nat -> (lim <= n)%nat -> wf n (c_ev c) -> basis nb bp bd (c_ev c) ->
  (forall i, (i < lim)%nat -> pend nb bp (c_ev c) i (buf c (nth i (c_pop c) 0%nat)) (nth i (c_muts c) [])) ->
  (forall i, (i < nb)%nat -> (i < lim)%nat -> buf c (nth i (c_pop c) 0%nat) = bp i) ->
  valid_schedule lim s -> (exists c' r, do_acts ev s (c, []) = Some (c', r)) \/ exists i, (nb <= i < lim)%nat /\ fails nb bp (buf c (nth i (c_pop c) 0%nat)).
Proof.
  intros Sh Hnb Hlim W B HP HB Hv. pose proof (valid_ordered _ _ Hv) as [Ho _].
  assert (Hcalc : forall i, In (Calc i) s <-> (i < lim)%nat).
  { intros i. destruct Hv as [Hc _]. erewrite count_occ_In. rewrite Hc. destruct (Nat.ltb_spec i lim); lia. }
  apply (acts_total_aux n lim nb bp bd c s Sh Hnb Hlim HP HB []); [exact Ho|intros i Hi; apply Hcalc, Hi|apply prefix_inv_0|].
  constructor; try assumption; try reflexivity. intros i _ [].
Qed.

(** updateFitnesses *)
Definition in_range (n : nat) (sw : list (nat * nat)) : Prop := forall i j, In (i, j) sw -> (i < n)%nat /\ (j < n)%nat.
Lemma swaps_total n sw : in_range n sw -> forall c, length (c_pop c) = n -> length (c_fits c) = n -> length (b_order (c_ev c)) = n -> exists c', do_swaps ev sw c = Some c'.
Proof.
  induction sw as [|[i j] sw IH]; intros R c L1 L2 L3; cbn [do_swaps]; [eauto|]. destruct (R i j (or_introl eq_refl)) as [Hi Hj]. unfold swap_members.
  destruct (swap_some (c_fits c) i j ltac:(lia) ltac:(lia)) as (fs & -> & Lf). destruct (swap_some (c_pop c) i j ltac:(lia) ltac:(lia)) as (ps & -> & Lp).
  cbn [keep_ev ev_swap]. destruct (swap_some (b_order (c_ev c)) i j ltac:(lia) ltac:(lia)) as (o & -> & Lo). cbn [option_map].
  apply IH; [intros a b I; apply R; right; exact I|cbn [c_pop c_fits c_ev b_order]; lia..].
Qed.
Lemma update_total n sw c : (0 < n)%nat -> in_range n sw -> shape n l c -> wf n (c_ev c) -> exists c', update_fitnesses ev sw c = Some c'.
Proof.
  intros Hn R Sh W. unfold update_fitnesses. destruct (swaps_total n sw R c (sh_pop _ _ _ Sh) (sh_fits _ _ _ Sh) (wf_len _ _ W)) as (c1 & E). rewrite E.
  pose proof (do_swaps_rel ev sw c c1 E) as (S1 & S2 & S3 & S4 & S5 & S6 & S7 & S8 & S9).
  assert (L1 : length (c_pop c1) = n) by (rewrite (Permutation_length S7); apply Sh).
  unfold take_best. destruct (nth_error (c_pop c1) 0) as [p|] eqn:Ep; [|apply nth_error_None in Ep; lia].
  destruct (swaps_together next fit n sw c c1 W (sh_pop _ _ _ Sh) (sh_fits _ _ _ Sh) E) as (_ & _ & L2 & _).
  destruct (nth_error (c_fits c1) 0) as [f|] eqn:Ef; [|apply nth_error_None in Ef; lia].
  assert (Hp : In p (c_pop c)) by (apply (Permutation_in _ S7), (nth_error_In _ _ Ep)).
  unfold buf_set. rewrite S1, S3. rewrite (sh_points _ _ _ Sh (c_best c)) by (left; reflexivity). rewrite (sh_points _ _ _ Sh p) by (right; apply in_or_app; left; exact Hp).
  rewrite Nat.eqb_refl. cbn [option_map]. eauto.
Qed.

(** * simple *)
Theorem simple_step_total cutoff mu s sw n c : (0 < n)%nat -> (cutoff <> 0)%nat -> (cutoff <= n)%nat -> shape n l c -> in_square c -> mutator_ok mu -> valid_schedule n s -> in_range n sw ->
  held fit holds l n c -> (exists c' r, simple_step ev cutoff mu s sw c = Some (c', r)) \/
  exists i, (cutoff <= i < n)%nat /\ fails cutoff (fun j => nth j (members c) []) (fst (mu i (nth ((i - cutoff) mod cutoff) (members c) []))).
Proof.
  intros Hn H0 Hcn Hs Hq Hmu Hv R [W Hh]. unfold simple_step. rewrite (sh_pop _ _ _ Hs).
  destruct (generation_total mu cutoff n n c Hmu H0 Hcn (le_n n) Hs Hq W) as (c1 & E1). rewrite E1.
  pose proof (new_generation_shape ev mu cutoff n n l c c1 H0 Hs Hq Hmu E1) as (G1 & G2 & G3 & G4 & G5 & G6 & G7 & G8 & G9 & G10 & G11 & G12 & _).
  destruct (generation_pend next fit holds l mu cutoff n n c c1 H0 Hs Hq Hmu W (fun i _ Hi => Hh i Hi) (fun i Hi => holdsat_idle fit holds l _ _ _ _ (Hh i Hi)) E1 (fun i => nth i (members c) []) (fun _ => eq_refl)) as (bd & W1 & B1 & F1 & P1 & M1 & _).
  unfold simple_calc. rewrite (sh_pop _ _ _ G1). rewrite (proj2 (Nat.eqb_neq n 0)) by lia.
  destruct (acts_total n n cutoff (fun i => nth i (members c) []) bd c1 s G1 Hcn (le_n n) W1 B1 P1 (fun i Hi _ => M1 i Hi) Hv) as [(c2 & r2 & E2)|(i & Hi & Fa)].
  2: { right. exists i. split; [exact Hi|]. rewrite <- members_nth in Fa by (rewrite (sh_pop _ _ _ G1); lia). rewrite (proj1 (G12 i ltac:(lia))) in Fa. unfold tgt in Fa. rewrite (proj2 (Nat.ltb_ge i cutoff)) in Fa by lia.
       rewrite members_nth by (rewrite (sh_pop _ _ _ Hs); pose proof (Nat.mod_upper_bound (i - cutoff) cutoff H0); lia). exact Fa. }
  left. rewrite E2.
  pose proof (gather ev n s c1 c2 r2 Hv E2) as (Sc & _).
  apply (acts_hold next fit holds l Hnew Hkeep Hmod n n cutoff _ bd c1 s c2 r2 Hcn (le_n n) W1 B1 P1) in E2 as (W2 & _); [|intros i Hi _; apply M1, Hi|exact Hv].
  destruct (update_total n sw c2 Hn R (static_shape n l c1 c2 Sc G1) W2) as (c3 & ->). cbn [option_map]. eauto.
Qed.
Variable inh : T.
Theorem new_simple_total groups s sw n : (0 < n)%nat -> length groups = n -> Forall (fun g => length g = l /\ Forall pt_in_unit g) groups -> valid_schedule n s -> in_range n sw ->
  (exists c r, new_simple ev groups (new_keeper T n) s sw = Some (c, r)) \/ exists i, (i < n)%nat /\ Fnew (nth i groups []).
Proof.
  intros Hn L Hf Hv R. unfold new_simple. destruct (init_core groups (new_keeper T n)) as [c1|] eqn:E1; [|unfold init_core in E1; destruct groups; [cbn in L; lia|discriminate]].
  pose proof (init_core_spec groups _ c1 l E1 Hf) as (G1 & G2 & G3 & G4 & G5 & G6 & G7). rewrite L in G1.
  unfold simple_calc. rewrite (sh_pop _ _ _ G1). rewrite (proj2 (Nat.eqb_neq n 0)) by lia.
  assert (W1 : wf n (c_ev c1)) by (rewrite G5; apply new_keeper_wf).
  assert (B1 : basis 0 (fun _ => []) (fun _ => inh) (c_ev c1)) by (intros j Hj; lia).
  pose proof (init_pend holds l groups n c1 E1 L Hf (fun _ => [])) as P1.
  assert (M1 : forall i, (i < 0)%nat -> (i < n)%nat -> buf c1 (nth i (c_pop c1) 0%nat) = (fun _ => []) i) by (intros i Hi; lia).
  destruct (acts_total n n 0 (fun _ => []) (fun _ => inh) c1 s G1 (Nat.le_0_l n) (le_n n) W1 B1 P1 M1 Hv) as [(c2 & r2 & E2)|(i & Hi & [Fa|(j & Hj & _)])]; [|right; exists i; split; [lia|]; rewrite <- G3, members_nth by (rewrite (sh_pop _ _ _ G1); lia); exact Fa|lia].
  left. rewrite E2.
  pose proof (gather ev n s c1 c2 r2 Hv E2) as (Sc & _).
  apply (acts_hold next fit holds l Hnew Hkeep Hmod n n 0 (fun _ => []) (fun _ => inh) c1 s c2 r2 (Nat.le_0_l n) (le_n n) W1 B1 P1 M1 Hv) in E2 as (W2 & _).
  destruct (update_total n sw c2 Hn R (static_shape n l c1 c2 Sc G1) W2) as (c3 & ->). cbn [option_map]. eauto.
Qed.

(** * modifiedGenetic *)
Lemma ben_step_len cutoff i fits muts ben ben' : set_beneficial cutoff i fits muts ben = Some ben' -> length ben' = length ben.
Proof.
  unfold set_beneficial. destruct (get_base cutoff i) as [b|]; [|discriminate]. destruct (nth_error muts i) as [ms|]; [|discriminate].
  destruct (nth_error ben b); [intros [= <-]; apply set_nth_length|]. destruct ms; [intros [= <-]; reflexivity|discriminate].
Qed.
Lemma g_act_total cutoff g r a c' r' : (cutoff <> 0)%nat -> (cutoff <= length (c_fits (g_core g)))%nat -> length (g_ben g) = cutoff ->
  (forall i, a = Recv i -> (i < length (c_muts (g_core g)))%nat) -> do_act ev (g_core g, r) a = Some (c', r') ->
  exists ben, g_act ev cutoff (g, r) a = Some (MGen c' ben, r') /\ length ben = cutoff.
Proof.
  intros H0 Lf Lb Hm E. unfold g_act. rewrite E. destruct a as [|i|i]; try (eexists; split; [reflexivity|exact Lb]).
  unfold get_base. rewrite (proj2 (Nat.eqb_neq cutoff 0) H0). pose proof (Nat.mod_upper_bound i cutoff H0) as Hb.
  unfold do_act in E. destruct (result r i); [|discriminate]. destruct (put i f (c_fits (g_core g))) as [fs|] eqn:Ep; [|discriminate]. apply put_inv in Ep as [Hi ->].
  destruct (ev_update ev _ i); [|discriminate]. injection E as <- <-. cbn [with_ev with_fits c_fits c_muts]. rewrite set_nth_length, (proj2 (Nat.ltb_lt (i mod cutoff) _)) by lia.
  destruct (flt _ _); [|eexists; split; [reflexivity|exact Lb]].
  destruct (set_beneficial cutoff i (set_nth i f (c_fits (g_core g))) (c_muts (g_core g)) (g_ben g)) as [ben|] eqn:Es; [cbn [option_map]; eexists; split; [reflexivity|]; rewrite (ben_step_len _ _ _ _ _ _ Es); exact Lb|].
  exfalso. unfold set_beneficial, get_base in Es. rewrite (proj2 (Nat.eqb_neq cutoff 0) H0) in Es. rewrite (nth_some _ i []) in Es by (apply Hm; reflexivity).
  rewrite (nth_some (g_ben g) (i mod cutoff) []) in Es by lia. discriminate.
Qed.
Lemma g_acts_total cutoff s : (cutoff <> 0)%nat -> forall g r c' r' n, length (c_fits (g_core g)) = n -> (cutoff <= n)%nat -> length (c_muts (g_core g)) = n -> length (g_ben g) = cutoff -> (forall i, In (Recv i) s -> (i < n)%nat) ->
  do_acts ev s (g_core g, r) = Some (c', r') -> exists ben, g_acts ev cutoff s (g, r) = Some (MGen c' ben, r') /\ length ben = cutoff.
Proof.
  intros H0. induction s as [|a s IH]; intros g r c' r' n Lf Hcn Lm Lb Hr; cbn [do_acts g_acts]; [intros [= <- <-]; destruct g as [c ben]; exists ben; split; [reflexivity|exact Lb]|].
  destruct (do_act ev (g_core g, r) a) as [[c1 r1]|] eqn:E; [|discriminate]. intros H.
  destruct (g_act_total cutoff g r a c1 r1 H0 ltac:(lia) Lb) as (ben & -> & Lb1); [intros i ->; rewrite Lm; apply Hr; left; reflexivity|exact E|].
  assert (X : length (c_fits c1) = n /\ length (c_muts c1) = n).
  { unfold do_act in E. destruct a as [|i|i].
    - destruct (ev_prepare ev (c_ev (g_core g))); [|discriminate]. injection E as <- <-. auto.
    - destruct (nth_error (c_pop (g_core g)) i); [|discriminate]. destruct (nth_error (c_muts (g_core g)) i); [|discriminate]. destruct (ev_calc ev _ i _ _) as [[? ?]|]; [|discriminate]. injection E as <- <-. auto.
    - destruct (result r i); [|discriminate]. destruct (put i f (c_fits (g_core g))) eqn:Ep; [|discriminate]. destruct (ev_update ev _ i); [|discriminate]. injection E as <- <-.
      apply put_inv in Ep as [_ ->]. cbn [with_ev with_fits c_fits c_muts]. rewrite set_nth_length. auto. }
  destruct X as [X1 X2]. apply (IH (MGen c1 ben) r1 c' r' n); try assumption. intros i Hi. apply Hr. right. exact Hi.
Qed.
Lemma combine_one_total cutoff n bp bd i g r : (cutoff <> 0)%nat -> (cutoff <= i)%nat -> (i < n)%nat -> (cutoff <= n)%nat -> shape n l (g_core g) -> length (g_ben g) = cutoff ->
  wf n (c_ev (g_core g)) -> basis cutoff bp bd (c_ev (g_core g)) -> idle (c_ev (g_core g)) i ->
  (forall b, (b < cutoff)%nat -> buf (g_core g) (nth b (c_pop (g_core g)) 0%nat) = bp b) -> ben_ok cutoff bp (g_ben g) ->
  (exists g' r', combine_one ev cutoff i (g, r) = Some (g', r')) \/
  exists pts, apply_muts (map fst (nth (i mod cutoff) (g_ben g) [])) (bp (i mod cutoff)%nat) = Some pts /\ fails cutoff bp pts.
Proof.
  intros H0 Hci Hi Hcn Hs Lb W B Hid Hbp Hok. destruct g as [c ben]. cbn [g_core g_ben] in *. unfold combine_one. cbn [g_core g_ben].
  rewrite put_some by (rewrite (sh_muts _ _ _ Hs); exact Hi). unfold get_base. rewrite (proj2 (Nat.eqb_neq cutoff 0) H0).
  rewrite (nth_some (c_pop c) i 0%nat) by (rewrite (sh_pop _ _ _ Hs); exact Hi). set (a := nth i (c_pop c) 0%nat).
  pose proof (Nat.mod_upper_bound i cutoff H0) as Hmb. rewrite (nth_some ben (i mod cutoff) []) by lia.
  destruct (nth (i mod cutoff) ben []) as [|b0 bt] eqn:Hbm.
  { left. rewrite put_some by (rewrite (sh_fits _ _ _ Hs); exact Hi). cbn [option_map]. eauto. }
  set (bm := b0 :: bt) in *. destruct (Hok _ Hmb) as [Nd Hb]. rewrite Hbm in Nd, Hb.
  rewrite (nth_some (c_pop c) (i mod cutoff) 0%nat) by (rewrite (sh_pop _ _ _ Hs); lia). set (ab := nth (i mod cutoff) (c_pop c) 0%nat).
  assert (Ia : In a (c_best c :: c_pop c ++ c_newpop c)) by (right; apply in_or_app; left; apply nth_In; rewrite (sh_pop _ _ _ Hs); exact Hi).
  assert (Iab : In ab (c_best c :: c_pop c ++ c_newpop c)) by (right; apply in_or_app; left; apply nth_In; rewrite (sh_pop _ _ _ Hs); lia).
  destruct (base_total n (c_ev c) i (i mod cutoff) W Hi ltac:(lia)) as (e1 & Ebase & _). rewrite Ebase.
  unfold buf_set. rewrite (sh_points _ _ _ Hs a Ia), (sh_points _ _ _ Hs ab Iab), Nat.eqb_refl.
  rewrite nth_set_nth, Nat.eqb_refl, (proj2 (Nat.ltb_lt _ _) (sh_range _ _ _ Hs a Ia)). cbn [andb].
  assert (Hbb : nth ab (c_store c) [] = bp (i mod cutoff)%nat) by (apply (Hbp (i mod cutoff)%nat Hmb)). rewrite Hbb.
  assert (Hmm : forall m, In m (map fst bm) -> nth_error (bp (i mod cutoff)%nat) (m_idx m) = Some (m_old m) /\ pt_in_unit (m_new m)).
  { intros m I. apply in_map_iff in I as ([m' k] & <- & I). apply (Hb m' k I). }
  destruct (apply_some (map fst bm) (bp (i mod cutoff)%nat)) as (pts & Eap); [intros m I; apply nth_error_Some; rewrite (proj1 (Hmm m I)); discriminate|]. rewrite Eap.
  destruct (base_step next fit holds l n cutoff bp bd (c_ev c) i (i mod cutoff) e1 W Hci Hi Hmb B Ebase) as (W1 & B1 & O1 & K1 & id & tri & base & jd & A1 & A2 & A3).
  destruct (B1 _ Hmb) as (Okb & _). assert (Nd' : NoDup (map m_idx (map fst bm))) by (rewrite map_map; exact Nd).
  assert (Hp : pend cutoff bp e1 i pts (map fst bm)).
  { split; [apply (apply_okp l (map fst bm) (bp (i mod cutoff)%nat)); [exact Nd'|exact Okb|apply Forall_forall; intros m I; apply Hmm, I|exact Eap]|].
    exists id, tri, (Some jd). split; [exact A3|]. split.
    - destruct Hid as (id' & tri' & A1' & Gd). rewrite A1' in A1. injection A1 as <- <- <-. exact Gd.
    - right. right. exists (i mod cutoff)%nat, jd. split; [exact Hmb|]. split; [reflexivity|]. split; [rewrite O1; exact A2|].
      apply apply_swaps; [exact Nd'|intros m I; apply Hmm, I|exact Eap]. }
  destruct (calc_total n cutoff bp bd e1 i pts (map fst bm) W1 Hcn Hi B1 Hp) as [(e2 & f & Ec)|[_ Fa]]; [|right; exists pts; auto]. left.
  destruct (calc_step next fit holds l Hnew Hkeep Hmod n cutoff bp bd e1 i pts (map fst bm) e2 f W1 Hcn Hi B1 Hp) as (W2 & _); [lia|exact Ec|].
  rewrite Ec. rewrite put_some by (rewrite (sh_fits _ _ _ Hs); exact Hi). destruct (wf_at _ _ W2 i Hi) as (id' & x & Ex). cbn [keep_ev ev_update]. rewrite Ex. cbn [option_map]. eauto.
Qed.
Lemma combine_muts_total cutoff n bp bd m : (cutoff <> 0)%nat -> (cutoff <= n)%nat -> forall i g r, (cutoff <= i)%nat -> (i + m = n)%nat -> shape n l (g_core g) -> length (g_ben g) = cutoff ->
  wf n (c_ev (g_core g)) -> basis cutoff bp bd (c_ev (g_core g)) -> (forall k, (i <= k < n)%nat -> idle (c_ev (g_core g)) k) ->
  (forall b, (b < cutoff)%nat -> buf (g_core g) (nth b (c_pop (g_core g)) 0%nat) = bp b) -> ben_ok cutoff bp (g_ben g) -> (forall b, NoDup (idxs (nth b (g_ben g) []))) ->
  (exists g' r', combine_muts ev cutoff m i (g, r) = Some (g', r') /\ wf n (c_ev (g_core g'))) \/
  exists b pts, (b < cutoff)%nat /\ apply_muts (map fst (nth b (g_ben g) [])) (bp b) = Some pts /\ fails cutoff bp pts.
Proof.
  intros H0 Hcn. induction m as [|m IH]; intros i g r Hci Him Hs Lb W B Hid Hbp Hok Hnd; cbn [combine_muts]; [left; eauto|].
  destruct (combine_one_total cutoff n bp bd i g r H0 Hci ltac:(lia) Hcn Hs Lb W B (Hid i ltac:(lia)) Hbp Hok) as [(g1 & r1 & E1)|(pts & Ep & Fa)]; [|right; exists (i mod cutoff)%nat, pts; split; [apply Nat.mod_upper_bound, H0|auto]]. rewrite E1.
  pose proof (combine_one_spec ev cutoff n l i g r g1 r1 Hs ltac:(lia) E1) as (B1 & B2 & B3 & B4 & B5).
  assert (Hs1 : shape n l (g_core g1)) by (apply (combined_shape ev n l cutoff (g_core g) (g_core g1) (g_ben g) i); try assumption; lia).
  pose proof B2 as (F1 & F2 & F3 & F4 & F5 & F6 & F7 & F8).
  destruct (combine_one_hold next fit holds l Hnew Hkeep Hmod cutoff n bp bd i g r g1 r1 H0 Hci ltac:(lia) Hcn Hs W B (Hid i ltac:(lia)) Hbp Hok E1) as (W1 & C1 & K1 & D1 & R1).
  assert (Hkk : forall k, (k < n)%nat -> k <> i -> buf (g_core g1) (nth k (c_pop (g_core g)) 0%nat) = buf (g_core g) (nth k (c_pop (g_core g)) 0%nat)).
  { intros k Hk N. apply B3. intros Heq. apply (nth_pop_inj n l _ _ _ Hs) in Heq; lia. }
  rewrite <- B1. apply (IH (S i) g1 r1); try assumption; try lia.
  - rewrite B1. exact Lb.
  - intros k Hk. destruct (Hid k ltac:(lia)) as (id & tri & A & Gd). exists id, tri. rewrite K1 by lia. auto.
  - intros b Hb. rewrite F1, Hkk by lia. apply Hbp, Hb.
  - rewrite B1. exact Hok.
  - rewrite B1. exact Hnd.
Qed.
Theorem genetic_step_total cutoff mu s sw n c ben : (cutoff <> 0)%nat -> (2 * cutoff <= n)%nat -> shape n l c -> in_square c -> mutator_ok mu -> valid_schedule (n - cutoff) s -> in_range n sw ->
  length ben = cutoff -> gheld fit holds l cutoff n c -> sorted (c_fits c) -> (exists g' r, genetic_step ev cutoff mu s sw (MGen c ben) = Some (g', r)) \/
  (exists i, (cutoff <= i < n - cutoff)%nat /\ fails cutoff (fun j => nth j (members c) []) (fst (mu i (nth ((i - cutoff) mod cutoff) (members c) [])))) \/
  (exists b ms pts, (b < cutoff)%nat /\ (forall m, In m ms -> exists k, (cutoff <= k < n - cutoff)%nat /\ (k mod cutoff = b)%nat /\ In m (snd (mu k (nth b (members c) [])))) /\
    NoDup (map m_idx ms) /\ apply_muts ms (nth b (members c) []) = Some pts /\ fails cutoff (fun j => nth j (members c) []) pts).
Proof.
  intros H0 H2 Hs Hq Hmu Hv R Hben (W & Hcnt & Hk) Hsort. unfold genetic_step. cbn [g_core g_ben]. rewrite (sh_pop _ _ _ Hs).
  destruct (generation_total mu cutoff (n - cutoff) n c Hmu H0 ltac:(lia) ltac:(lia) Hs Hq W) as (c1 & E1). rewrite E1.
  pose proof (new_generation_shape ev mu cutoff (n - cutoff) n l c c1 H0 Hs Hq Hmu E1) as (G1 & G2 & G3 & G4 & G5 & G6 & G7 & G8 & G9 & G10 & G11 & G12 & G13 & G14).
  assert (Htop : forall i, (i < cutoff)%nat -> (i < n)%nat -> holdsat (c_ev c) i (nth i (members c) []) (nth i (c_fits c) f0)).
  { intros i Hi Hn. destruct (Hk i Hn) as [[A _]|[A _]]; [exact A|]. exfalso. apply (top_positive cutoff (c_fits c) i Hsort); rewrite ?(sh_fits _ _ _ Hs); try assumption. }
  assert (Hidl : forall i, (i < n)%nat -> idle (c_ev c) i) by (intros i Hi; destruct (Hk i Hi) as [[A _]|[_ A]]; [eapply holdsat_idle, A|exact A]).
  destruct (generation_pend next fit holds l mu cutoff (n - cutoff) n c c1 H0 Hs Hq Hmu W Htop Hidl E1 (fun i => nth i (members c) []) (fun _ => eq_refl)) as (bd & W1 & B1 & F1 & P1 & M1 & I1).
  unfold g_calc. cbn [g_core]. rewrite (sh_pop _ _ _ G1). rewrite (proj2 (Nat.leb_gt n cutoff)) by lia.
  destruct (acts_total n (n - cutoff) cutoff (fun i => nth i (members c) []) bd c1 s G1 G8 ltac:(lia) W1 B1 P1 (fun i Hi _ => M1 i Hi) Hv) as [(c2 & r2 & E2c)|(i & Hi & Fa)].
  2: { right. left. exists i. split; [exact Hi|]. rewrite <- members_nth in Fa by (rewrite (sh_pop _ _ _ G1); lia). rewrite (proj1 (G12 i ltac:(lia))) in Fa. unfold tgt in Fa. rewrite (proj2 (Nat.ltb_ge i cutoff)) in Fa by lia.
       rewrite members_nth by (rewrite (sh_pop _ _ _ Hs); pose proof (Nat.mod_upper_bound (i - cutoff) cutoff H0); lia). exact Fa. }
  destruct (valid_ordered _ _ Hv) as [_ Hrecv].
  match goal with |- context [g_acts ev cutoff s (MGen c1 ?b, _)] => set (ben1 := b) end.
  assert (Lb1 : length ben1 = cutoff) by (unfold ben1; rewrite map_length; exact Hben).
  destruct (g_acts_total cutoff s H0 (MGen c1 ben1) [] c2 r2 n (sh_fits _ _ _ G1) G8 (sh_muts _ _ _ G1) Lb1) as (ben2 & E2 & Lb2); [intros i Hi; apply Hrecv in Hi; lia|exact E2c|].
  match goal with |- context [g_acts ev cutoff s ?x] => replace (g_acts ev cutoff s x) with (Some (MGen c2 ben2, r2)) by (symmetry; exact E2) end.
  pose proof (gather ev (n - cutoff) s c1 c2 r2 Hv E2c) as (Sc & T1 & _).
  destruct (acts_hold next fit holds l Hnew Hkeep Hmod n (n - cutoff) cutoff (fun i => nth i (members c) []) bd c1 s c2 r2 G8 ltac:(lia) W1 B1 P1 (fun i Hi _ => M1 i Hi) Hv E2c) as (W2 & B2 & O2 & D2 & K2).
  apply (g_gather ev cutoff (n - cutoff) s c1 _ (MGen c2 ben2) r2) in E2 as (imp & J1 & _ & _); [|exact H0|exact Hv|exact Lb1|].
  2: { intros b. unfold ben1. destruct (nth_in_or_default b (map (fun _ : bmuts => @nil (mut * nat)) ben) []) as [Hi|He]; [|exact He].
       apply in_map_iff in Hi as (x & Hx & _). symmetry. exact Hx. }
  assert (Hs2 : shape n l c2) by (apply (static_shape n l c1 _ Sc G1)).
  pose proof Sc as (S1 & S2 & S3 & S4 & S5 & S6 & S7 & S8). cbn [g_core g_ben] in J1.
  assert (Hnd : forall b, NoDup (idxs (nth b ben2 []))) by (intros b; apply (ben_nodup _ _ _ _ _ _ _ J1)).
  assert (Hbuf : forall a, buf c2 a = buf c1 a) by (intros a; unfold buf; rewrite S1; reflexivity).
  assert (Hlog : forall b m i, (b < cutoff)%nat -> In (m, i) (nth b ben2 []) -> (cutoff <= i < n - cutoff)%nat /\ (i mod cutoff = b)%nat /\ In m (snd (mu i (buf c (nth b (c_pop c) 0%nat))))).
  { intros b m i Hb Hin. destruct J1 as [_ J1]. destruct (J1 b Hb) as (_ & Q & _). destruct (Q m i Hin) as (Q1 & Q2 & Q3 & Q4).
    apply Hrecv in Q1. rewrite (proj2 (G12 i ltac:(lia))) in Q4. unfold tlog in Q4. destruct (Nat.ltb_spec i cutoff) as [|Hi]; [destruct Q4|].
    assert (Hj : ((i - cutoff) mod cutoff = b)%nat). { rewrite <- Q2. replace i with ((i - cutoff) + 1 * cutoff)%nat at 2 by lia. rewrite Nat.mod_add by exact H0. reflexivity. }
    rewrite Hj in Q4. split; [lia|]. split; [exact Q2|exact Q4]. }
  assert (Hok : ben_ok cutoff (fun i => nth i (members c) []) ben2).
  { intros b Hb. split; [apply Hnd|]. intros m i Hin. destruct (Hlog b m i Hb Hin) as (_ & _ & Q4). assert (Hu : Forall pt_in_unit (buf c (nth b (c_pop c) 0%nat))).
    { apply Hq. right. apply in_or_app. left. apply nth_In. rewrite (sh_pop _ _ _ Hs). lia. }
    destruct (Hmu i _ Hu) as [El Un]. rewrite members_nth by (rewrite (sh_pop _ _ _ Hs); lia).
    destruct (el_entry _ _ _ El m Q4) as [X1 X2]. split; [exact X1|]. apply nth_error_In in X2. rewrite Forall_forall in Un. apply Un, X2. }
  destruct (combine_muts_total cutoff n (fun i => nth i (members c) []) bd cutoff H0 G8 (n - cutoff) (MGen c2 ben2) r2) as [(g3 & r3 & E3 & W3)|(b & pts & Hb & Ep & Fa)]; cbn [g_core g_ben] in *; try assumption; try lia.
  { intros k Hk'. destruct (I1 k ltac:(lia)) as (id & tri & A & Gd). exists id, tri. rewrite K2 by lia. auto. }
  { intros b Hb. rewrite Hbuf, S2. apply M1, Hb. }
  2: { right. right. exists b, (map fst (nth b ben2 [])), pts. split; [exact Hb|]. split; [|split; [rewrite map_map; apply Hnd|split; assumption]].
       intros m Hm. apply in_map_iff in Hm as ([m' k] & <- & Hm). exists k. rewrite members_nth by (rewrite (sh_pop _ _ _ Hs); lia). apply Hlog; assumption. }
  left. rewrite E3.
  assert (Hs3 : shape n l (g_core g3)).
  { apply (combine_muts_spec ev cutoff n l cutoff H0 G8 (n - cutoff) (MGen c2 ben2) r2 g3 r3 Hs2 ltac:(lia) Hnd); [|exact E3]. intros b Hb _. lia. }
  destruct (update_total n sw (g_core g3) ltac:(lia) R Hs3 W3) as (c4 & ->). cbn [option_map]. eauto.
Qed.
Theorem new_genetic_total cutoff groups s sw n : (cutoff <> 0)%nat -> (cutoff < n)%nat -> length groups = n -> Forall (fun g => length g = l /\ Forall pt_in_unit g) groups -> valid_schedule (n - cutoff) s -> in_range n sw ->
  (exists g r, new_genetic ev cutoff groups (new_keeper T n) s sw = Some (g, r)) \/ exists i, (i < n - cutoff)%nat /\ Fnew (nth i groups []).
Proof.
  intros H0 Hcn L Hf Hv R. unfold new_genetic. destruct (init_core groups (new_keeper T n)) as [c1|] eqn:E1; [|unfold init_core in E1; destruct groups; [cbn in L; lia|discriminate]].
  pose proof (init_core_spec groups _ c1 l E1 Hf) as (G1 & G2 & G3 & G4 & G5 & G6 & G7). rewrite L in G1.
  unfold g_calc. cbn [g_core]. rewrite (sh_pop _ _ _ G1). rewrite (proj2 (Nat.leb_gt n cutoff)) by lia.
  assert (W1 : wf n (c_ev c1)) by (rewrite G5; apply new_keeper_wf).
  assert (B1 : basis 0 (fun _ => []) (fun _ => inh) (c_ev c1)) by (intros j Hj; lia).
  assert (P1 : forall i, (i < n - cutoff)%nat -> pend 0 (fun _ => []) (c_ev c1) i (buf c1 (nth i (c_pop c1) 0%nat)) (nth i (c_muts c1) [])) by (intros i Hi; apply (init_pend holds l groups n c1 E1 L Hf (fun _ => [])); lia).
  assert (M1 : forall i, (i < 0)%nat -> (i < n - cutoff)%nat -> buf c1 (nth i (c_pop c1) 0%nat) = (fun _ => []) i) by (intros i Hi; lia).
  destruct (acts_total n (n - cutoff) 0 (fun _ => []) (fun _ => inh) c1 s G1 (Nat.le_0_l n) ltac:(lia) W1 B1 P1 M1 Hv) as [(c2 & r2 & E2c)|(i & Hi & [Fa|(j & Hj & _)])]; [|right; exists i; split; [lia|]; rewrite <- G3, members_nth by (rewrite (sh_pop _ _ _ G1); lia); exact Fa|lia].
  left.
  destruct (valid_ordered _ _ Hv) as [_ Hrecv].
  destruct (g_acts_total cutoff s H0 (MGen c1 (repeat [] cutoff)) [] c2 r2 n (sh_fits _ _ _ G1) ltac:(lia) (sh_muts _ _ _ G1) (repeat_length _ _)) as (ben2 & E2 & Lb2); [intros i Hi; apply Hrecv in Hi; lia|exact E2c|].
  match goal with |- context [g_acts ev cutoff s ?x] => replace (g_acts ev cutoff s x) with (Some (MGen c2 ben2, r2)) by (symmetry; exact E2) end. cbn [g_core].
  pose proof (gather ev (n - cutoff) s c1 c2 r2 Hv E2c) as (Sc & _).
  apply (acts_hold next fit holds l Hnew Hkeep Hmod n (n - cutoff) 0 (fun _ => []) (fun _ => inh) c1 s c2 r2 (Nat.le_0_l n) ltac:(lia) W1 B1 P1 M1 Hv) in E2c as (W2 & _).
  destruct (update_total n sw c2 ltac:(lia) R (static_shape n l c1 c2 Sc G1) W2) as (c3 & ->). cbn [option_map]. eauto.
Qed.
End Total.
