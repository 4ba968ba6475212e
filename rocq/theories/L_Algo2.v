(** Lemmas on the algorithms: gathering fitnesses, sorting, one Step of simple. *)
From Coq Require Import ZArith Reals List Bool Arith Lia Permutation.
From Flocq Require Import IEEE754.BinarySingleNaN.
From Verif Require Import GoNum M_Norm M_Slice M_Algo S_Norm S_Algo L_Norm L_Slice L_Algo.
Import ListNotations.

Section L.
Context {E : Type} (ev : evaluator E).

Definition static (c0 c : core E) : Prop :=
  c_store c = c_store c0 /\ c_pop c = c_pop c0 /\ c_newpop c = c_newpop c0 /\ c_best c = c_best c0 /\ c_muts c = c_muts c0 /\
  c_bestfit c = c_bestfit c0 /\ c_gen c = c_gen c0 /\ length (c_fits c) = length (c_fits c0).

(** f was calculated for member i of c. *)
Definition calculated (c : core E) i f : Prop := exists e e',
  ev_calc ev e i (buf c (nth i (c_pop c) 0%nat)) (nth i (c_muts c) []) = Some (e', f).

Definition prefix_inv (c0 : core E) (p : list act) (c : core E) (r : results) : Prop :=
  static c0 c /\
  (forall i, In (Calc i) p -> exists f, result r i = Some f) /\
  (forall i f, result r i = Some f -> calculated c0 i f /\ In (Calc i) p) /\
  (forall i, In (Recv i) p -> result r i = Some (nth i (c_fits c) f0) /\ (i < length (c_fits c0))%nat) /\
  (forall i, ~ In (Recv i) p -> nth i (c_fits c) f0 = nth i (c_fits c0) f0).

Definition ordered (s : list act) : Prop := NoDup s /\ forall l1 i l2, s = l1 ++ Recv i :: l2 -> In (Calc i) l1 /\ In Prep l1.

Lemma valid_ordered n s : valid_schedule n s -> ordered s /\ forall i, In (Recv i) s <-> (i < n)%nat.
Proof.
  intros [Hc Ho]. split.
  - split; [|exact Ho]. eapply NoDup_count_occ. intros a. rewrite Hc. destruct a as [|i|i]; [lia|destruct (i <? n)%nat; lia..].
  - intros i. erewrite count_occ_In. rewrite Hc. destruct (Nat.ltb_spec i n); lia.
Qed.

Lemma result_cons i f r j : result ((i, f) :: r) j = if (i =? j)%nat then Some f else result r j.
Proof. unfold result. cbn [find fst]. destruct (i =? j)%nat; reflexivity. Qed.

Lemma do_act_inv c0 p c r a c' r' : (forall i, a = Recv i -> In (Calc i) p) -> ~ In a p ->
  (forall i, In (Recv i) p -> In (Calc i) p) ->
  prefix_inv c0 p c r -> do_act ev (c, r) a = Some (c', r') -> prefix_inv c0 (p ++ [a]) c' r'.
Proof.
  intros Ha Hna Hrc ((S1 & S2 & S3 & S4 & S5 & S6 & S7 & S8) & H1 & H2 & H3 & H4).
  assert (Hin : forall b, In b (p ++ [a]) <-> In b p \/ b = a).
  { intros b. rewrite in_app_iff. cbn [In]. intuition. }
  unfold do_act. destruct a as [|i|i].
  - destruct (ev_prepare ev (c_ev c)) as [e|]; cbn [option_map]; intros H; inversion H; subst; clear H.
    split; [repeat split; assumption|]. cbn [with_ev c_fits].
    split; [intros i Hi; apply Hin in Hi as [Hi|Hi]; [auto|discriminate]|].
    split; [intros i f Hi; destruct (H2 i f Hi) as [G1 G2]; split; [exact G1|apply Hin; auto]|].
    split; [intros i Hi; apply Hin in Hi as [Hi|Hi]; [auto|discriminate]|].
    intros i Hi. apply H4. intros Hi'. apply Hi, Hin. auto.
  - destruct (nth_error (c_pop c) i) as [pi|] eqn:Ep; [|discriminate].
    destruct (nth_error (c_muts c) i) as [m|] eqn:Em; [|discriminate].
    destruct (ev_calc ev (c_ev c) i (buf c pi) m) as [[e f]|] eqn:Ec; cbn [option_map]; [|discriminate].
    cbn [fst snd]. intros H; inversion H; subst; clear H.
    split; [repeat split; assumption|]. cbn [with_ev c_fits].
    assert (Hcalc : calculated c0 i f).
    { exists (c_ev c), e. rewrite <- S2, <- S5. erewrite (nth_error_nth _ _ _ Ep), (nth_error_nth _ _ _ Em).
      unfold buf in *. rewrite <- S1. exact Ec. }
    split; [|split; [|split]].
    + intros j Hj. rewrite result_cons. destruct (Nat.eqb_spec i j) as [->|Hne]; [exists f; reflexivity|].
      apply Hin in Hj as [Hj|Hj]; [auto|congruence].
    + intros j g. rewrite result_cons. destruct (Nat.eqb_spec i j) as [->|Hne].
      * intros Hg; inversion Hg; subst. split; [exact Hcalc|apply Hin; auto].
      * intros Hg. destruct (H2 j g Hg) as [G1 G2]. split; [exact G1|apply Hin; auto].
    + intros j Hj. apply Hin in Hj as [Hj|Hj]; [|discriminate]. rewrite result_cons.
      destruct (Nat.eqb_spec i j) as [->|Hne]; [exfalso; apply Hna, Hrc, Hj|]. apply H3, Hj.
    + intros j Hj. apply H4. intros Hi'. apply Hj, Hin. auto.
  - destruct (result r i) as [f|] eqn:Er; [|discriminate].
    destruct (put i f (c_fits c)) as [fs|] eqn:Ep; [|discriminate].
    destruct (ev_update ev (c_ev c) i) as [e|]; [|discriminate].
    intros H; inversion H; subst; clear H. apply put_inv in Ep as [Hi ->].
    split; [unfold static; cbn [with_ev with_fits c_store c_pop c_newpop c_best c_muts c_bestfit c_gen c_fits]; rewrite L_Slice.set_nth_length; repeat split; assumption|].
    cbn [with_ev with_fits c_fits].
    split; [intros j Hj; apply Hin in Hj as [Hj|Hj]; [auto|discriminate]|].
    split; [intros j g Hj; destruct (H2 j g Hj) as [G1 G2]; split; [exact G1|apply Hin; auto]|].
    split.
    + intros j Hj. rewrite nth_set_nth, (proj2 (Nat.ltb_lt _ _) Hi), andb_true_r.
      destruct (Nat.eqb_spec i j) as [->|Hne]; [split; [exact Er|lia]|].
      apply Hin in Hj as [Hj|Hj]; [apply H3, Hj|congruence].
    + intros j Hj. rewrite nth_set_nth. destruct (Nat.eqb_spec i j) as [->|Hne]; [exfalso; apply Hj, Hin; auto|].
      cbn [andb]. apply H4. intros Hi'. apply Hj, Hin. auto.
Qed.

Lemma do_acts_inv c0 s : forall p c r c' r', ordered (p ++ s) -> prefix_inv c0 p c r -> do_acts ev s (c, r) = Some (c', r') -> prefix_inv c0 (p ++ s) c' r'.
Proof.
  induction s as [|a s IH]; intros p c r c' r' Ho Hp; cbn [do_acts].
  - intros H; inversion H; subst. rewrite app_nil_r. exact Hp.
  - destruct (do_act ev (c, r) a) as [[c1 r1]|] eqn:Ea; [|discriminate]. intros H.
    replace (p ++ a :: s) with ((p ++ [a]) ++ s) in * by (rewrite <- app_assoc; reflexivity).
    apply IH with (c := c1) (r := r1); [exact Ho| |exact H].
    destruct Ho as [Hnd Ho]. apply do_act_inv with (c := c) (r := r); [| | |exact Hp|exact Ea].
    + intros i ->. apply (Ho p i s). rewrite <- app_assoc. reflexivity.
    + intros Hin. rewrite <- app_assoc in Hnd. apply NoDup_remove_2 in Hnd. apply Hnd, in_or_app. auto.
    + intros i Hi. apply in_split in Hi as (l1 & l2 & ->). apply in_or_app. left.
      apply (Ho l1 i ((l2 ++ [a]) ++ s)). rewrite <- !app_assoc. cbn [app]. rewrite <- ?app_assoc. reflexivity.
Qed.

Lemma prefix_inv_0 c : prefix_inv c [] c [].
Proof. repeat split; try reflexivity; cbn in *; intros; try tauto; discriminate. Qed.

Theorem gather n s c c' r : valid_schedule n s -> do_acts ev s (c, []) = Some (c', r) ->
  static c c' /\
  (forall i, (i < n)%nat -> result r i = Some (nth i (c_fits c') f0) /\ (i < length (c_fits c))%nat /\ calculated c i (nth i (c_fits c') f0)) /\
  (forall i, ~ (i < n)%nat -> nth i (c_fits c') f0 = nth i (c_fits c) f0) /\
  (forall i f, result r i = Some f -> calculated c i f).
Proof.
  intros Hv Hd. apply valid_ordered in Hv as [Ho Hin].
  apply (do_acts_inv c s []) in Hd as (S & H1 & H2 & H3 & H4); [|exact Ho|apply prefix_inv_0]. cbn [app] in *.
  split; [exact S|]. split; [|split].
  - intros i Hi. apply Hin in Hi. destruct (H3 i Hi) as [G1 G2]. repeat split; [exact G1|exact G2|]. apply (H2 i _ G1).
  - intros i Hi. apply H4. rewrite Hin. exact Hi.
  - intros i f Hr. apply (H2 i f Hr).
Qed.

(* ------------------------------------------------------------------ *)
(** * Sorting *)

Lemma swap_at_perm {A} i j (l l' : list A) : swap_at i j l = Some l' -> Permutation l' l.
Proof.
  unfold swap_at. destruct (nth_error l i) as [x|] eqn:Ei; [|discriminate]. destruct (nth_error l j) as [y|] eqn:Ej; [|discriminate].
  intros H; inversion H; subst; clear H.
  apply Permutation_sym. apply Permutation_nth_error. rewrite !L_Slice.set_nth_length.
  split; [reflexivity|].
  exists (fun k => if (k =? j)%nat then i else if (k =? i)%nat then j else k). split.
  - intros a b. destruct (Nat.eqb_spec a j), (Nat.eqb_spec b j), (Nat.eqb_spec a i), (Nat.eqb_spec b i); lia.
  - intros k. rewrite !L_Slice.set_nth_error, L_Slice.set_nth_length.
    assert (Hil : (i < length l)%nat) by (apply nth_error_Some; congruence).
    assert (Hjl : (j < length l)%nat) by (apply nth_error_Some; congruence).
    destruct (Nat.eqb_spec k j) as [->|Hkj].
    + destruct (Nat.eqb_spec j j) as [_|]; [|lia]. rewrite (proj2 (Nat.ltb_lt _ _) Hjl), Ei. reflexivity.
    + destruct (Nat.eqb_spec j k); [lia|]. cbn [andb]. destruct (Nat.eqb_spec k i) as [->|Hki].
      * rewrite Nat.eqb_refl, (proj2 (Nat.ltb_lt _ _) Hil), Ej. reflexivity.
      * destruct (Nat.eqb_spec i k); [lia|]. reflexivity.
Qed.

Lemma combine_set_nth {A B} i (a : A) (b : B) l m : combine (set_nth i a l) (set_nth i b m) = set_nth i (a, b) (combine l m).
Proof.
  revert i m; induction l as [|x t IH]; intros [|i] [|y m]; cbn; try reflexivity.
  rewrite IH. reflexivity.
Qed.
Lemma combine_nth_error {A B} (l : list A) (m : list B) i x y : nth_error l i = Some x -> nth_error m i = Some y -> nth_error (combine l m) i = Some (x, y).
Proof. revert i m; induction l as [|a t IH]; intros [|i] [|b m]; cbn; try discriminate; [congruence|apply IH]. Qed.
Lemma swap_at_combine {A B} i j (l l' : list A) (m m' : list B) : swap_at i j l = Some l' -> swap_at i j m = Some m' ->
  swap_at i j (combine l m) = Some (combine l' m').
Proof.
  unfold swap_at. destruct (nth_error l i) as [x|] eqn:Ei; [|discriminate]. destruct (nth_error l j) as [y|] eqn:Ej; [|discriminate].
  destruct (nth_error m i) as [x'|] eqn:Fi; [|discriminate]. destruct (nth_error m j) as [y'|] eqn:Fj; [|discriminate].
  intros H1 H2; inversion H1; inversion H2; subst.
  rewrite (combine_nth_error _ _ _ _ _ Ei Fi), (combine_nth_error _ _ _ _ _ Ej Fj), !combine_set_nth. reflexivity.
Qed.
Lemma swap_at_length {A} i j (l l' : list A) : swap_at i j l = Some l' -> length l' = length l.
Proof. intros H. apply Permutation_length, (swap_at_perm _ _ _ _ H). Qed.

Definition sorted_rel (c c' : core E) : Prop :=
  c_store c' = c_store c /\ c_newpop c' = c_newpop c /\ c_best c' = c_best c /\ c_muts c' = c_muts c /\ c_bestfit c' = c_bestfit c /\
  c_gen c' = c_gen c /\ Permutation (c_pop c') (c_pop c) /\ length (c_fits c') = length (c_fits c) /\
  Permutation (combine (c_pop c') (c_fits c')) (combine (c_pop c) (c_fits c)).

Lemma do_swaps_rel sw : forall c c', do_swaps ev sw c = Some c' -> sorted_rel c c'.
Proof.
  induction sw as [|[i j] sw IH]; intros c c'; cbn [do_swaps].
  - intros H; inversion H; subst. unfold sorted_rel. repeat split; apply Permutation_refl.
  - destruct (swap_members ev c (i, j)) as [c1|] eqn:E1; [|discriminate]. intros H. apply IH in H.
    unfold swap_members in E1. destruct (swap_at i j (c_fits c)) as [f|] eqn:Ef; [|discriminate].
    destruct (swap_at i j (c_pop c)) as [p|] eqn:Ep; [|discriminate]. destruct (ev_swap ev (c_ev c) i j); [|discriminate].
    inversion E1; subst; clear E1. destruct H as (H1 & H2 & H3 & H4 & H5 & H6 & H7 & H8 & H9).
    cbn [c_store c_newpop c_best c_muts c_bestfit c_gen c_pop c_fits] in *.
    unfold sorted_rel. repeat split; try assumption.
    + eapply Permutation_trans; [exact H7|apply (swap_at_perm _ _ _ _ Ep)].
    + rewrite H8. apply (swap_at_length _ _ _ _ Ef).
    + eapply Permutation_trans; [exact H9|]. apply (swap_at_perm i j). apply swap_at_combine; assumption.
Qed.

(** Everything about updateFitnesses. *)
Lemma update_rel sw c c' n l : shape n l c -> update_fitnesses ev sw c = Some c' ->
  shape n l c' /\ c_best c' = c_best c /\ c_gen c' = c_gen c /\ c_newpop c' = c_newpop c /\ c_muts c' = c_muts c /\
  Permutation (c_pop c') (c_pop c) /\
  Permutation (combine (c_pop c') (c_fits c')) (combine (c_pop c) (c_fits c)) /\
  (0 < n)%nat /\
  buf c' (c_best c) = buf c' (nth 0 (c_pop c') 0%nat) /\
  (forall a, a <> c_best c -> buf c' a = buf c a) /\
  c_bestfit c' = nth 0 (c_fits c') f0.
Proof.
  intros Hs. unfold update_fitnesses. destruct (do_swaps ev sw c) as [c1|] eqn:E1; [|discriminate].
  apply do_swaps_rel in E1 as (S1 & S2 & S3 & S4 & S5 & S6 & S7 & S8 & S9).
  unfold take_best. destruct (nth_error (c_pop c1) 0) as [p|] eqn:Ep; [|discriminate].
  destruct (nth_error (c_fits c1) 0) as [f|] eqn:Ef; [|discriminate]. unfold buf_set.
  destruct (Nat.eqb_spec (length (nth (c_best c1) (c_store c1) [])) (length (nth p (c_store c1) []))) as [Hl|]; cbn [option_map]; [|discriminate].
  intros H; inversion H; subst c'; clear H. cbn [c_store c_newpop c_best c_muts c_bestfit c_gen c_pop c_fits].
  assert (Hin : forall a, In a (c_best c :: c_pop c1 ++ c_newpop c) <-> In a (c_best c :: c_pop c ++ c_newpop c)).
  { intros a. cbn [In]. rewrite !in_app_iff. split; intros [G|[G|G]]; auto; right; left.
    - apply (Permutation_in _ S7 G). - apply (Permutation_in _ (Permutation_sym S7) G). }
  assert (Hp : In p (c_pop c)) by (apply (Permutation_in _ S7), (nth_error_In _ _ Ep)).
  assert (Hb : (c_best c < length (c_store c))%nat) by (apply (sh_range _ _ _ Hs); left; reflexivity).
  assert (Hn : (0 < n)%nat).
  { rewrite <- (sh_pop _ _ _ Hs). destruct (c_pop c); [destruct Hp|cbn; lia]. }
  assert (Hbuf : forall a, nth a (set_nth (c_best c1) (nth p (c_store c1) []) (c_store c1)) [] = if (c_best c =? a)%nat then nth p (c_store c) [] else nth a (c_store c) []).
  { intros a. rewrite nth_set_nth, S3, S1. rewrite (proj2 (Nat.ltb_lt _ _) Hb), andb_true_r. reflexivity. }
  split; [|split; [|split; [|split; [|split; [|split; [|split; [|split; [|split; [|split]]]]]]]]]; try assumption.
  - constructor; cbn [c_store c_newpop c_best c_muts c_bestfit c_gen c_pop c_fits].
    + rewrite (Permutation_length S7). apply Hs.
    + rewrite S2. apply Hs.
    + rewrite S8. apply Hs.
    + rewrite S4. apply Hs.
    + rewrite S3, S2. eapply Permutation_NoDup; [|apply (sh_distinct _ _ _ Hs)].
      apply perm_skip, Permutation_app; [apply Permutation_sym, S7|apply Permutation_refl].
    + intros a Ha. rewrite L_Slice.set_nth_length, S1. rewrite S3, S2 in Ha. apply (sh_range _ _ _ Hs), Hin, Ha.
    + intros a Ha. rewrite Hbuf. rewrite S3, S2 in Ha. apply Hin in Ha. destruct (Nat.eqb_spec (c_best c) a).
      * apply (sh_points _ _ _ Hs). right. apply in_or_app. auto.
      * apply (sh_points _ _ _ Hs), Ha.
  - unfold buf. cbn [c_store c_pop]. rewrite !Hbuf, Nat.eqb_refl. rewrite (nth_error_nth _ _ 0%nat Ep).
    destruct (Nat.eqb_spec (c_best c) p); reflexivity.
  - intros a Ha. unfold buf. cbn [c_store]. rewrite Hbuf. destruct (Nat.eqb_spec (c_best c) a); [congruence|reflexivity].
  - symmetry. apply nth_error_nth, Ef.
Qed.

(* ------------------------------------------------------------------ *)
(** * The state after newGeneration *)

Lemma exact_length old new log : exact_log old new log -> length new = length old.
Proof. intros H. apply H. Qed.

Lemma new_generation_shape mu cutoff lim n l (c c' : core E) : (cutoff <> 0)%nat -> shape n l c -> in_square c -> mutator_ok mu ->
  new_generation ev mu cutoff lim c = Some c' ->
  shape n l c' /\ in_square c' /\ c_best c' = c_best c /\ c_gen c' = c_gen c /\ c_bestfit c' = c_bestfit c /\ c_fits c' = c_fits c /\
  buf c' (c_best c) = buf c (c_best c) /\
  (cutoff <= n)%nat /\ (lim <= n)%nat /\ c_newpop c' = c_pop c /\ c_pop c' = c_newpop c /\
  (forall k, (k < Nat.max cutoff lim)%nat -> nth k (members c') [] = tgt mu cutoff c k /\ nth k (c_muts c') [] = tlog mu cutoff c k) /\
  (forall k, (k < n)%nat -> (Nat.max cutoff lim <= k)%nat -> nth k (members c') [] = buf c (nth k (c_newpop c) 0%nat)) /\
  (forall k, (k < n)%nat -> buf c' (nth k (c_pop c) 0%nat) = buf c (nth k (c_pop c) 0%nat)).
Proof.
  intros H0 Hs Hq Hmu H. apply (new_generation_gen ev mu cutoff n l c Hs) in H as (c2 & Hg & Hcn & Hln & ->); [|exact H0].
  pose proof Hg as ((F1 & F2 & F3 & F4 & F5 & F6 & F7 & F8) & K1 & K2 & K3).
  destruct (shape_nodup _ _ _ Hs) as (N1 & N2 & N3).
  pose proof (sh_pop _ _ _ Hs) as Lp. pose proof (sh_new _ _ _ Hs) as Ln.
  assert (Hmax : (Nat.max cutoff lim <= n)%nat) by lia.
  assert (Hpop : forall k, (k < n)%nat -> buf c2 (nth k (c_pop c) 0%nat) = buf c (nth k (c_pop c) 0%nat)).
  { intros k Hk. apply (gen_src mu cutoff n l c Hs _ c2 k Hk Hg). }
  assert (Hbest : buf c2 (c_best c) = buf c (c_best c)).
  { apply K2. intros Hin. apply (In_firstn_nth 0%nat) in Hin as (k & Hk1 & Hk2 & Heq).
    apply (proj1 (N3 k ltac:(lia))). exact Heq. }
  assert (Hpin : forall k, (k < n)%nat -> In (nth k (c_pop c) 0%nat) (c_best c :: c_pop c ++ c_newpop c)).
  { intros k Hk. right. apply in_or_app. left. apply nth_In. lia. }
  assert (Htgt : forall k, (k < n)%nat -> length (tgt mu cutoff c k) = l /\ Forall pt_in_unit (tgt mu cutoff c k)).
  { intros k Hk. unfold tgt. destruct (Nat.ltb_spec k cutoff).
    - split; [apply (sh_points _ _ _ Hs), Hpin, Hk|apply Hq, Hpin, Hk].
    - assert (Hj : ((k - cutoff) mod cutoff < n)%nat) by (pose proof (Nat.mod_upper_bound (k - cutoff) cutoff H0); lia).
      destruct (Hmu k (buf c (nth ((k - cutoff) mod cutoff) (c_pop c) 0%nat)) (Hq _ (Hpin _ Hj))) as [G1 G2].
      split; [|exact G2]. rewrite (exact_length _ _ _ G1). apply (sh_points _ _ _ Hs), Hpin, Hj. }
  assert (Hnew : forall k, (k < n)%nat -> (Nat.max cutoff lim <= k)%nat -> buf c2 (nth k (c_newpop c) 0%nat) = buf c (nth k (c_newpop c) 0%nat)).
  { intros k Hk Hge. apply K2. intros Hin. apply (In_firstn_nth 0%nat) in Hin as (k' & Hk1 & Hk2 & Heq).
    apply N2 in Heq; lia. }
  assert (Hmem : forall k (d : core E), (k < length (c_pop d))%nat -> nth k (members d) [] = buf d (nth k (c_pop d) 0%nat)).
  { intros k d Hk. unfold members, buf. rewrite (nth_indep _ [] (nth 0 (c_store d) [])) by (rewrite map_length; exact Hk).
    rewrite (map_nth (fun a => nth a (c_store d) [])). reflexivity. }
  assert (Hall : forall a, In a (c_best c :: c_newpop c ++ c_pop c) -> length (nth a (c_store c2) []) = l /\ Forall pt_in_unit (nth a (c_store c2) [])).
  { intros a [<-|Ha]; [|apply in_app_or in Ha as [Ha|Ha]].
    - unfold buf in Hbest. rewrite Hbest. split; [apply (sh_points _ _ _ Hs)|apply Hq]; left; reflexivity.
    - apply (In_nth _ _ 0%nat) in Ha as (k & Hk & <-). rewrite Ln in Hk.
      destruct (Nat.lt_ge_cases k (Nat.max cutoff lim)) as [Hlt|Hge].
      + specialize (K1 k Hlt). unfold buf in K1. rewrite K1. apply Htgt. lia.
      + specialize (Hnew k Hk Hge). unfold buf in Hnew. rewrite Hnew.
        assert (In (nth k (c_newpop c) 0%nat) (c_best c :: c_pop c ++ c_newpop c)) by (right; apply in_or_app; right; apply nth_In; lia).
        split; [apply (sh_points _ _ _ Hs); assumption|apply Hq; assumption].
    - apply (In_nth _ _ 0%nat) in Ha as (k & Hk & <-). rewrite Lp in Hk. specialize (Hpop k Hk). unfold buf in Hpop. rewrite Hpop.
      split; [apply (sh_points _ _ _ Hs)|apply Hq]; apply Hpin, Hk. }
  repeat match goal with |- _ /\ _ => split end; try assumption.
  - constructor; cbn [c_store c_newpop c_best c_muts c_bestfit c_gen c_pop c_fits].
    + rewrite F2. apply Hs. + rewrite F1. apply Hs. + rewrite F4. apply Hs. + rewrite F8. apply Hs.
    + rewrite F1, F2, F3. eapply Permutation_NoDup; [|apply (sh_distinct _ _ _ Hs)]. apply perm_skip, Permutation_app_comm.
    + intros a Ha. rewrite F1, F2, F3 in Ha. rewrite F7. apply (sh_range _ _ _ Hs). cbn [In] in *. rewrite in_app_iff in *. tauto.
    + intros a Ha. rewrite F1, F2, F3 in Ha. apply Hall, Ha.
  - intros a Ha. cbn [c_store c_newpop c_best c_pop] in *. rewrite F1, F2, F3 in Ha. apply Hall, Ha.
  - intros k Hk. rewrite Hmem by (cbn [c_pop]; rewrite F2, Ln; lia). unfold buf. cbn [c_store c_pop c_muts]. rewrite F2.
    specialize (K1 k Hk). unfold buf in K1. rewrite K1. split; [reflexivity|].
    rewrite K3. rewrite (proj2 (Nat.ltb_lt _ _) Hk). reflexivity.
  - intros k Hk Hge. rewrite Hmem by (cbn [c_pop]; rewrite F2, Ln; lia). unfold buf. cbn [c_store c_pop]. rewrite F2.
    apply Hnew; assumption.
Qed.
End L.
