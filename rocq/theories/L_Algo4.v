(** Lemmas on the algorithms: modifiedGenetic. *)
From Coq Require Import ZArith Reals List Bool Arith Lia Lra Permutation.
From Flocq Require Import IEEE754.BinarySingleNaN.
From Verif Require Import GoNum M_Norm M_Slice M_Algo S_Norm S_Algo L_Norm L_Slice L_Algo L_Algo2 L_Algo3.
Import ListNotations.

(* ------------------------------------------------------------------ *)
(** * The list of beneficial mutations of one base *)

Definition idxs (b : bmuts) : list nat := map (fun x => m_idx (fst x)) b.

Lemma find_mut_spec b idx : forall k0, match find_mut k0 idx b with
  | None => ~ In idx (idxs b)
  | Some (k, src) => exists o, (k0 <= k)%nat /\ nth_error b (k - k0) = Some (o, src) /\ m_idx o = idx
  end.
Proof.
  induction b as [|[o src] t IH]; intros k0; cbn [find_mut]; [cbn; tauto|].
  destruct (Nat.eqb_spec (m_idx o) idx) as [He|Hne].
  - exists o. split; [lia|]. rewrite Nat.sub_diag. split; [reflexivity|exact He].
  - specialize (IH (S k0)). destruct (find_mut (S k0) idx t) as [[k s]|].
    + destruct IH as (o' & H1 & H2 & H3). exists o'. split; [lia|]. split; [|exact H3].
      replace (k - k0)%nat with (S (k - S k0)) by lia. exact H2.
    + unfold idxs in *. cbn [map In]. tauto.
Qed.

Lemma map_set_nth {A B} (f : A -> B) i a l : map f (set_nth i a l) = set_nth i (f a) (map f l).
Proof. revert i; induction l as [|x t IH]; intros [|i]; cbn; try reflexivity. rewrite IH. reflexivity. Qed.
Lemma set_nth_same {A} i (a : A) l : nth_error l i = Some a -> set_nth i a l = l.
Proof. revert i; induction l as [|x t IH]; intros [|i]; cbn; try discriminate; [congruence|]. intros H. rewrite (IH i H). reflexivity. Qed.
Lemma In_set_nth_inv {A} i (a x : A) l : In x (set_nth i a l) -> x = a \/ In x l.
Proof. revert i; induction l as [|y t IH]; intros [|i]; cbn; [tauto..| |]; intros [H|H]; auto. apply IH in H. tauto. Qed.
Lemma In_set_nth_other {A} i (a x o : A) l : nth_error l i = Some o -> In x l -> x = o \/ In x (set_nth i a l).
Proof.
  revert i; induction l as [|y t IH]; intros [|i]; cbn; try tauto; try discriminate.
  - intros H. inversion H; subst. intros [G|G]; auto.
  - intros H [G|G]; auto. destruct (IH i H G); auto.
Qed.

Lemma add_mut_spec F i b m : NoDup (idxs b) ->
  let b' := add_mut F i b m in
  NoDup (idxs b') /\
  (forall x, In x b' -> x = (m, i) \/ In x b) /\
  (forall x, In x b -> exists y, In y b' /\ m_idx (fst y) = m_idx (fst x) /\
     (y = x \/ (snd y = i /\ flt (nth (snd x) F f0) (nth i F f0) = true))) /\
  (exists y, In y b' /\ m_idx (fst y) = m_idx m /\ (snd y = i \/ (In y b /\ flt (nth (snd y) F f0) (nth i F f0) = false))).
Proof.
  intros ND. cbv zeta. unfold add_mut. pose proof (find_mut_spec b (m_idx m) 0) as Hf.
  destruct (find_mut 0 (m_idx m) b) as [[k src]|].
  - destruct Hf as (o & _ & Hn & Ho). rewrite Nat.sub_0_r in Hn.
    destruct (flt (nth src F f0) (nth i F f0)) eqn:Ef.
    + split; [|split; [|split]].
      * unfold idxs. rewrite map_set_nth. cbn [fst]. rewrite set_nth_same; [exact ND|].
        rewrite nth_error_map, Hn. cbn [option_map fst]. congruence.
      * intros x Hx. apply In_set_nth_inv in Hx. exact Hx.
      * intros x Hx. destruct (In_set_nth_other k (m, i) x _ b Hn Hx) as [->|Hx'].
        -- exists (m, i). split; [|split; [cbn; congruence|right; split; [reflexivity|exact Ef]]].
           apply (nth_error_In _ k). rewrite L_Slice.set_nth_error, Nat.eqb_refl.
           rewrite (proj2 (Nat.ltb_lt _ _)); [reflexivity|]. apply nth_error_Some. congruence.
        -- exists x. split; [exact Hx'|]. split; [reflexivity|auto].
      * exists (m, i). split; [|split; [reflexivity|auto]].
        apply (nth_error_In _ k). rewrite L_Slice.set_nth_error, Nat.eqb_refl.
        rewrite (proj2 (Nat.ltb_lt _ _)); [reflexivity|]. apply nth_error_Some. congruence.
    + split; [exact ND|]. split; [auto|]. split; [intros x Hx; exists x; auto|].
      exists (o, src). split; [apply (nth_error_In _ _ Hn)|]. split; [exact Ho|]. right. split; [apply (nth_error_In _ _ Hn)|exact Ef].
  - split; [|split; [|split]].
    + unfold idxs in *. rewrite map_app. cbn [map fst]. apply NoDup_rev in ND. rewrite <- (rev_involutive (map _ b ++ [_])).
      apply NoDup_rev. rewrite rev_app_distr. cbn [rev app]. constructor; [|exact ND]. rewrite <- in_rev. exact Hf.
    + intros x Hx. apply in_app_or in Hx as [Hx|[Hx|[]]]; auto.
    + intros x Hx. exists x. split; [apply in_or_app; auto|auto].
    + exists (m, i). split; [apply in_or_app; right; left; reflexivity|auto].
Qed.

(** After handling all mutations of an improving member [i]. *)
Lemma add_muts_spec F i ms : is_nan (nth i F f0) = false -> forall b, NoDup (idxs b) ->
  (forall x, In x b -> is_nan (nth (snd x) F f0) = false) ->
  let b' := fold_left (add_mut F i) ms b in
  NoDup (idxs b') /\
  (forall x, In x b' -> (In (fst x) ms /\ snd x = i) \/ In x b) /\
  (forall x, In x b -> exists y, In y b' /\ m_idx (fst y) = m_idx (fst x) /\ not_above (nth (snd x) F f0) (nth (snd y) F f0)) /\
  (forall m, In m ms -> exists y, In y b' /\ m_idx (fst y) = m_idx m /\ not_above (nth i F f0) (nth (snd y) F f0)).
Proof.
  intros Hi. induction ms as [|m ms IH]; intros b ND Hb; cbv zeta; cbn [fold_left].
  - split; [exact ND|]. split; [auto|]. split; [|intros m []].
    intros x Hx. exists x. split; [exact Hx|]. split; [reflexivity|]. apply not_above_refl, Hb, Hx.
  - destruct (add_mut_spec F i b m ND) as (A1 & A2 & A3 & A4).
    assert (Hb1 : forall x, In x (add_mut F i b m) -> is_nan (nth (snd x) F f0) = false).
    { intros x Hx. apply A2 in Hx as [->|Hx]; [exact Hi|apply Hb, Hx]. }
    destruct (IH (add_mut F i b m) A1 Hb1) as (B1 & B2 & B3 & B4).
    split; [exact B1|]. split; [|split].
    + intros x Hx. apply B2 in Hx as [[H1 H2]|Hx]; [left; split; [right; exact H1|exact H2]|].
      apply A2 in Hx as [->|Hx]; [left; split; [left; reflexivity|reflexivity]|right; exact Hx].
    + intros x Hx. destruct (A3 x Hx) as (y & Y1 & Y2 & Y3). destruct (B3 y Y1) as (z & Z1 & Z2 & Z3).
      exists z. split; [exact Z1|]. split; [congruence|]. apply not_above_trans with (y := nth (snd y) F f0); [|exact Z3].
      destruct Y3 as [->|[Y3 Y4]]; [apply not_above_refl, Hb, Hx|]. rewrite Y3. apply flt_not_above; [apply Hb, Hx|exact Hi|exact Y4].
    + intros m' [<-|Hm]; [|apply B4, Hm]. destruct A4 as (y & Y1 & Y2 & Y3). destruct (B3 y Y1) as (z & Z1 & Z2 & Z3).
      exists z. split; [exact Z1|]. split; [congruence|]. apply not_above_trans with (y := nth (snd y) F f0); [|exact Z3].
      destruct Y3 as [->|[Y3 Y4]]; [apply not_above_refl, Hi|]. repeat split; [exact Hi|apply Hb, Y3|exact Y4].
Qed.

(* ------------------------------------------------------------------ *)
(** * Gathering *)
Section L.
Context {E : Type} (ev : evaluator E).

Lemma g_act_core cutoff g r a g' r' : g_act ev cutoff (g, r) a = Some (g', r') -> do_act ev (g_core g, r) a = Some (g_core g', r').
Proof.
  unfold g_act. destruct (do_act ev (g_core g, r) a) as [[c1 r1]|]; [|discriminate].
  destruct a as [|i|i]; try (intros H; inversion H; subst; reflexivity).
  destruct (get_base cutoff i) as [b|]; [|discriminate]. destruct (b <? length (c_fits c1))%nat; [|discriminate].
  destruct (flt _ _).
  - destruct (set_beneficial _ _ _ _ _); cbn [option_map]; [|discriminate]. intros H; inversion H; subst; reflexivity.
  - intros H; inversion H; subst; reflexivity.
Qed.
Lemma g_acts_core cutoff s : forall g r g' r', g_acts ev cutoff s (g, r) = Some (g', r') -> do_acts ev s (g_core g, r) = Some (g_core g', r').
Proof.
  induction s as [|a s IH]; intros g r g' r'; cbn [g_acts do_acts].
  - intros H; inversion H; subst; reflexivity.
  - destruct (g_act ev cutoff (g, r) a) as [[g1 r1]|] eqn:Ea; [|discriminate]. apply g_act_core in Ea. rewrite Ea. apply IH.
Qed.

(** What is known about the beneficial mutations after the messages of the prefix [p]:
    [imp i] says that member i improved on its base. *)
Definition ben_inv (cutoff : nat) (c : core E) (imp : nat -> bool) (F : list f64) (p : list act) (ben : list bmuts) : Prop :=
  length ben = cutoff /\ forall b, (b < cutoff)%nat -> let bm := nth b ben [] in
  NoDup (idxs bm) /\
  (forall m i, In (m, i) bm -> In (Recv i) p /\ (i mod cutoff = b)%nat /\ imp i = true /\ In m (nth i (c_muts c) [])) /\
  (forall m i, In (Recv i) p -> (i mod cutoff = b)%nat -> imp i = true -> In m (nth i (c_muts c) []) ->
     exists m' i', In (m', i') bm /\ m_idx m' = m_idx m /\ not_above (nth i F f0) (nth i' F f0)).

(** Two lists of fitnesses agree on the members whose message was handled. *)
Lemma ben_inv_fits cutoff c imp F G p ben : (forall i, In (Recv i) p -> nth i F f0 = nth i G f0) ->
  ben_inv cutoff c imp F p ben -> ben_inv cutoff c imp G p ben.
Proof.
  intros HFG [Hl H]. split; [exact Hl|]. intros b Hb. destruct (H b Hb) as (H1 & H2 & H3). split; [exact H1|]. split; [exact H2|].
  intros m i Hi Hm Himp Hin. destruct (H3 m i Hi Hm Himp Hin) as (m' & i' & G1 & G2 & G3). exists m', i'.
  rewrite <- (HFG i Hi), <- (HFG i' (proj1 (H2 m' i' G1))). auto.
Qed.

Lemma recv_step cutoff (c0 : core E) imp p (c : core E) r i g r' ben : (cutoff <> 0)%nat ->
  ~ In (Recv i) p -> In (Calc i) p -> (forall j, In (Recv j) p -> In (Calc j) p) ->
  prefix_inv ev c0 p c r ->
  ben_inv cutoff c0 imp (c_fits c) p ben ->
  (forall j, In (Recv j) p -> imp j = true -> is_nan (nth j (c_fits c) f0) = false) ->
  g_act ev cutoff (MGen c ben, r) (Recv i) = Some (g, r') ->
  imp i = flt (nth (i mod cutoff) (c_fits (g_core g)) f0) (nth i (c_fits (g_core g)) f0) ->
  ben_inv cutoff c0 imp (c_fits (g_core g)) (p ++ [Recv i]) (g_ben g) /\
  (forall j, In (Recv j) (p ++ [Recv i]) -> imp j = true -> is_nan (nth j (c_fits (g_core g)) f0) = false).
Proof.
  intros H0 Hni Hci Hrc Hp Hb Hn Hg Himp.
  pose proof (g_act_core _ _ _ _ _ _ Hg) as Hd. cbn [g_core] in Hd.
  assert (Hp' : prefix_inv ev c0 (p ++ [Recv i]) (g_core g) r').
  { apply (do_act_inv ev c0 p c r (Recv i)); [intros j Hj; inversion Hj; subst; exact Hci|exact Hni|exact Hrc|exact Hp|exact Hd]. }
  assert (Hsame : forall j, In (Recv j) p -> nth j (c_fits c) f0 = nth j (c_fits (g_core g)) f0).
  { intros j Hj. destruct Hp as (_ & _ & _ & P3 & _). destruct Hp' as (_ & _ & _ & P3' & _).
    destruct (P3 j Hj) as [Q1 _]. destruct (P3' j) as [Q2 _]; [apply in_or_app; auto|].
    assert (r' = r).
    { unfold do_act in Hd. destruct (result r i); [|discriminate]. destruct (put _ _ _); [|discriminate]. destruct (ev_update _ _ _); [|discriminate]. inversion Hd; reflexivity. }
    subst r'. rewrite Q1 in Q2. inversion Q2. reflexivity. }
  destruct Hp' as ((S1 & S2 & S3 & S4 & S5 & S6 & S7 & S8) & _).
  unfold g_act in Hg. cbn [g_core g_ben] in Hg. rewrite Hd in Hg.
  unfold get_base in Hg. destruct (Nat.eqb_spec cutoff 0) as [|_]; [contradiction|].
  destruct (i mod cutoff <? length (c_fits (g_core g)))%nat; [|discriminate].
  assert (Hin : forall j, In (Recv j) (p ++ [Recv i]) -> In (Recv j) p \/ j = i).
  { intros j Hj. apply in_app_or in Hj as [Hj|[Hj|[]]]; [auto|inversion Hj; auto]. }
  assert (Hn' : forall j, In (Recv j) (p ++ [Recv i]) -> imp j = true -> is_nan (nth j (c_fits (g_core g)) f0) = false).
  { intros j Hj Hij. apply Hin in Hj as [Hj| ->]; [rewrite <- (Hsame j Hj); apply Hn; assumption|].
    rewrite Himp in Hij. apply (flt_nan _ _ Hij). }
  split; [|exact Hn'].
  apply (ben_inv_fits _ _ _ _ _ _ _ Hsame) in Hb.
  rewrite <- Himp in Hg. destruct (imp i) eqn:Ei.
  - unfold set_beneficial in Hg. unfold get_base in Hg. destruct (Nat.eqb_spec cutoff 0) as [|_]; [contradiction|].
    rewrite S5 in Hg. destruct (nth_error (c_muts c0) i) as [ms|] eqn:Em; [|discriminate].
    pose proof (Nat.mod_upper_bound i cutoff H0) as Hmb. destruct Hb as [Hl Hb].
    rewrite (nth_error_nth' ben [] ) in Hg by lia. cbn [option_map] in Hg. match type of Hg with Some (MGen _ ?x, _) = _ => assert (Hgb : g_ben g = x) by (apply (f_equal (fun o => match o with Some (q, _) => g_ben q | None => [] end)) in Hg; cbn [g_ben] in Hg; symmetry; exact Hg) end.
    rewrite Hgb. clear Hg.
    split; [rewrite L_Slice.set_nth_length; exact Hl|]. intros b Hbc. cbv zeta.
    rewrite nth_set_nth, Hl, (proj2 (Nat.ltb_lt _ _) Hmb), andb_true_r.
    apply (nth_error_nth _ _ []) in Em.
    destruct (Nat.eqb_spec (i mod cutoff) b) as [Heq|Hne].
    + subst b. destruct (Hb (i mod cutoff)%nat Hmb) as (B1 & B2 & B3).
      set (F := c_fits (g_core g)) in *.
      assert (Hin0 : is_nan (nth i F f0) = false) by (apply Hn'; [apply in_or_app; right; left; reflexivity|exact Ei]).
      assert (Hbn : forall x, In x (nth (i mod cutoff)%nat ben []) -> is_nan (nth (snd x) F f0) = false).
      { intros [m j] Hx. cbn [snd]. destruct (B2 m j Hx) as (Q1 & _ & Q3 & _). apply Hn'; [apply in_or_app; auto|exact Q3]. }
      destruct (add_muts_spec F i ms Hin0 _ B1 Hbn) as (A1 & A2 & A3 & A4).
      split; [exact A1|]. split.
      * intros m j Hx. destruct (A2 _ Hx) as [[Q1 Q2]|Q].
        -- cbn [fst snd] in *. subst j. repeat split; [apply in_or_app; right; left; reflexivity|exact Ei|rewrite Em; exact Q1].
        -- destruct (B2 m j Q) as (Q1 & Q2 & Q3 & Q4). repeat split; [apply in_or_app; auto|exact Q2|exact Q3|exact Q4].
      * intros m j Hj Hjm Hji Hm. apply Hin in Hj as [Hj| ->].
        -- destruct (B3 m j Hj Hjm Hji Hm) as (m' & i' & Q1 & Q2 & Q3). destruct (A3 _ Q1) as ([m2 i2] & Z1 & Z2 & Z3). cbn [fst snd] in *.
           exists m2, i2. split; [exact Z1|]. split; [congruence|]. apply not_above_trans with (1 := Q3). exact Z3.
        -- rewrite Em in Hm. destruct (A4 m Hm) as ([m2 i2] & Z1 & Z2 & Z3). exists m2, i2. auto.
    + destruct (Hb b Hbc) as (B1 & B2 & B3). split; [exact B1|]. split.
      * intros m j Hx. destruct (B2 m j Hx) as (Q1 & Q2 & Q3 & Q4). repeat split; [apply in_or_app; auto|exact Q2|exact Q3|exact Q4].
      * intros m j Hj Hjm Hji Hm. apply Hin in Hj as [Hj| ->]; [|congruence]. apply (B3 m j Hj Hjm Hji Hm).
  - assert (Hgb : g_ben g = ben) by (apply (f_equal (fun o => match o with Some (q, _) => g_ben q | None => [] end)) in Hg; cbn [g_ben] in Hg; symmetry; exact Hg).
    rewrite Hgb. destruct Hb as [Hl Hb]. split; [exact Hl|]. intros b Hbc.
    destruct (Hb b Hbc) as (B1 & B2 & B3). split; [exact B1|]. split.
    + intros m j Hx. destruct (B2 m j Hx) as (Q1 & Q2 & Q3 & Q4). repeat split; [apply in_or_app; auto|exact Q2|exact Q3|exact Q4].
    + intros m j Hj Hjm Hji Hm. apply Hin in Hj as [Hj| ->]; [|congruence]. apply (B3 m j Hj Hjm Hji Hm).
Qed.

Lemma ben_inv_ext cutoff (c : core E) imp imp' F p ben : (forall i, In (Recv i) p -> imp i = imp' i) ->
  ben_inv cutoff c imp F p ben -> ben_inv cutoff c imp' F p ben.
Proof.
  intros He [Hl H]. split; [exact Hl|]. intros b Hb. destruct (H b Hb) as (H1 & H2 & H3). split; [exact H1|]. split.
  - intros m i Hin. destruct (H2 m i Hin) as (Q1 & Q2 & Q3 & Q4). rewrite (He i Q1) in Q3. auto.
  - intros m i Hi Hm Himp Hin. rewrite <- (He i Hi) in Himp. apply (H3 m i Hi Hm Himp Hin).
Qed.

(** The complete invariant of the collecting loop. *)
Definition g_inv cutoff (c0 : core E) (p : list act) (g : mgen E) (r : results) : Prop :=
  prefix_inv ev c0 p (g_core g) r /\ exists imp,
  ben_inv cutoff c0 imp (c_fits (g_core g)) p (g_ben g) /\
  (forall j, In (Recv j) p -> imp j = true -> is_nan (nth j (c_fits (g_core g)) f0) = false) /\
  (forall j, In (Recv j) p -> exists x, imp j = flt x (nth j (c_fits (g_core g)) f0) /\
     (x = nth (j mod cutoff) (c_fits c0) f0 \/ (In (Recv (j mod cutoff)) p /\ x = nth (j mod cutoff) (c_fits (g_core g)) f0))).

Lemma g_inv_quiet cutoff (c0 : core E) p q F F' ben ben' imp : (forall j, In (Recv j) q <-> In (Recv j) p) -> F' = F -> ben' = ben ->
  (ben_inv cutoff c0 imp F p ben /\
  (forall j, In (Recv j) p -> imp j = true -> is_nan (nth j F f0) = false) /\
  (forall j, In (Recv j) p -> exists x, imp j = flt x (nth j F f0) /\
     (x = nth (j mod cutoff) (c_fits c0) f0 \/ (In (Recv (j mod cutoff)) p /\ x = nth (j mod cutoff) F f0)))) ->
  exists imp, ben_inv cutoff c0 imp F' q ben' /\
  (forall j, In (Recv j) q -> imp j = true -> is_nan (nth j F' f0) = false) /\
  (forall j, In (Recv j) q -> exists x, imp j = flt x (nth j F' f0) /\
     (x = nth (j mod cutoff) (c_fits c0) f0 \/ (In (Recv (j mod cutoff)) q /\ x = nth (j mod cutoff) F' f0))).
Proof.
  intros Hf4 -> -> (Hb & Hn & Hx). exists imp. split.
  - destruct Hb as [Hl Hb]. split; [exact Hl|]. intros b Hbc. destruct (Hb b Hbc) as (B1 & B2 & B3). split; [exact B1|]. split.
    + intros m j Q. destruct (B2 m j Q) as (Q1 & Q2). rewrite Hf4. auto.
    + intros m j Q. apply B3. apply Hf4. exact Q.
  - split; [intros j Q; apply Hn; apply Hf4; exact Q|].
    intros j Q. apply Hf4 in Q. destruct (Hx j Q) as (x & X1 & X2). exists x. split; [exact X1|]. rewrite Hf4. exact X2.
Qed.

Lemma do_act_fits (c : core E) r a c' r' : do_act ev (c, r) a = Some (c', r') -> (forall i, a <> Recv i) -> c_fits c' = c_fits c.
Proof.
  unfold do_act. destruct a as [|i|i]; intros H Hn.
  - destruct (ev_prepare ev (c_ev c)); cbn [option_map] in H; [|discriminate]. inversion H; reflexivity.
  - destruct (nth_error (c_pop c) i); [|discriminate]. destruct (nth_error (c_muts c) i); [|discriminate].
    destruct (ev_calc _ _ _ _ _); cbn [option_map] in H; [|discriminate]. inversion H; reflexivity.
  - exfalso. apply (Hn i). reflexivity.
Qed.

Lemma g_act_inv cutoff c0 p g r a g' r' : (cutoff <> 0)%nat -> (forall i, a = Recv i -> In (Calc i) p) -> ~ In a p ->
  (forall i, In (Recv i) p -> In (Calc i) p) ->
  g_inv cutoff c0 p g r -> g_act ev cutoff (g, r) a = Some (g', r') -> g_inv cutoff c0 (p ++ [a]) g' r'.
Proof.
  intros H0 Ha Hna Hrc (Hp & imp & Hb & Hn & Hx) Hg. pose proof (g_act_core _ _ _ _ _ _ Hg) as Hd.
  assert (Hp' : prefix_inv ev c0 (p ++ [a]) (g_core g') r') by (apply (do_act_inv ev c0 p (g_core g) r a); assumption).
  split; [exact Hp'|].
  destruct a as [|i|i].
  1,2: eapply g_inv_quiet; [| | |split; [exact Hb|split; [exact Hn|exact Hx]]];
    [intros j; rewrite in_app_iff; cbn [In]; split; [intros [Q|[Q|[]]]; [exact Q|discriminate]|auto]| |].
  1,3: apply (do_act_fits _ _ _ _ _ Hd); discriminate.
  1,2: unfold g_act in Hg; rewrite Hd in Hg; apply (f_equal (fun o => match o with Some (q, _) => g_ben q | None => [] end)) in Hg; cbn [g_ben] in Hg; symmetry; exact Hg.
  (* Recv i *)
  set (imp' := fun j => if (j =? i)%nat then flt (nth (i mod cutoff) (c_fits (g_core g')) f0) (nth i (c_fits (g_core g')) f0) else imp j).
  exists imp'.
  assert (He : forall j, In (Recv j) p -> imp j = imp' j).
  { intros j Hj. unfold imp'. destruct (Nat.eqb_spec j i) as [->|]; [contradiction|reflexivity]. }
  assert (Hi' : imp' i = flt (nth (i mod cutoff) (c_fits (g_core g')) f0) (nth i (c_fits (g_core g')) f0)).
  { unfold imp'. rewrite Nat.eqb_refl. reflexivity. }
  destruct g as [c ben]. cbn [g_core g_ben] in *.
  destruct (recv_step cutoff c0 imp' p c r i g' r' ben H0 Hna (Ha i eq_refl) Hrc Hp) as [R1 R2].
  { apply (ben_inv_ext _ _ imp); assumption. }
  { intros j Hj. rewrite <- (He j Hj). apply Hn, Hj. }
  { exact Hg. } { exact Hi'. }
  split; [exact R1|]. split; [exact R2|].
  assert (Hr : r' = r).
  { unfold do_act in Hd. destruct (result r i); [|discriminate]. destruct (put _ _ _); [|discriminate]. destruct (ev_update _ _ _); [|discriminate]. inversion Hd; reflexivity. }
  subst r'.
  assert (Hsame : forall j, In (Recv j) p -> nth j (c_fits c) f0 = nth j (c_fits (g_core g')) f0).
  { intros j Hj. destruct Hp as (_ & _ & _ & P3 & _). destruct Hp' as (_ & _ & _ & P3' & _).
    destruct (P3 j Hj) as [Q1 _]. destruct (P3' j) as [Q2 _]; [apply in_or_app; auto|]. rewrite Q1 in Q2. inversion Q2. reflexivity. }
  intros j Hj. apply in_app_or in Hj as [Hj|[Hj|[]]].
  - destruct (Hx j Hj) as (x & X1 & X2). exists x. rewrite <- (He j Hj), <- (Hsame j Hj). split; [exact X1|].
    destruct X2 as [X2|[X2 X3]]; [left; exact X2|right]. split; [apply in_or_app; auto|]. rewrite <- (Hsame _ X2). exact X3.
  - inversion Hj; subst j. exists (nth (i mod cutoff) (c_fits (g_core g')) f0). split; [exact Hi'|].
    destruct Hp' as (_ & _ & _ & P3' & P4').
    destruct (in_dec (fun x y : act => ltac:(decide equality; apply Nat.eq_dec)) (Recv (i mod cutoff)) (p ++ [Recv i])) as [Hin|Hout].
    + right. auto.
    + left. apply P4', Hout.
Qed.

Lemma g_acts_inv cutoff c0 s : (cutoff <> 0)%nat -> forall p g r g' r', ordered (p ++ s) -> g_inv cutoff c0 p g r ->
  g_acts ev cutoff s (g, r) = Some (g', r') -> g_inv cutoff c0 (p ++ s) g' r'.
Proof.
  intros H0. induction s as [|a s IH]; intros p g r g' r' Ho Hp; cbn [g_acts].
  - intros H; inversion H; subst. rewrite app_nil_r. exact Hp.
  - destruct (g_act ev cutoff (g, r) a) as [[g1 r1]|] eqn:Ea; [|discriminate]. intros H.
    replace (p ++ a :: s) with ((p ++ [a]) ++ s) in * by (rewrite <- app_assoc; reflexivity).
    apply IH with (g := g1) (r := r1); [exact Ho| |exact H].
    destruct Ho as [Hnd Ho]. apply g_act_inv with (g := g) (r := r); [exact H0| | | |exact Hp|exact Ea].
    + intros i ->. apply (Ho p i s). rewrite <- app_assoc. reflexivity.
    + intros Hin. rewrite <- app_assoc in Hnd. apply NoDup_remove_2 in Hnd. apply Hnd, in_or_app. auto.
    + intros i Hi. apply in_split in Hi as (l1 & l2 & ->). apply in_or_app. left.
      apply (Ho l1 i ((l2 ++ [a]) ++ s)). rewrite <- !app_assoc. cbn [app]. rewrite <- ?app_assoc. reflexivity.
Qed.

Theorem g_gather cutoff n s c ben g r : (cutoff <> 0)%nat -> valid_schedule n s -> length ben = cutoff -> (forall b, nth b ben [] = []) ->
  g_acts ev cutoff s (MGen c ben, []) = Some (g, r) ->
  exists imp, ben_inv cutoff c imp (c_fits (g_core g)) s (g_ben g) /\
  (forall j, (j < n)%nat -> imp j = true -> is_nan (nth j (c_fits (g_core g)) f0) = false) /\
  ((forall b, (b < cutoff)%nat -> nth b (c_fits c) f0 = nth b (c_fits (g_core g)) f0) ->
   forall j, (j < n)%nat -> imp j = flt (nth (j mod cutoff) (c_fits (g_core g)) f0) (nth j (c_fits (g_core g)) f0)).
Proof.
  intros H0 Hv Hl Hb Hd. apply valid_ordered in Hv as [Ho Hin].
  apply (g_acts_inv cutoff c s H0 []) in Hd as (_ & imp & H1 & H2 & H3); [|exact Ho|].
  - exists imp. cbn [app] in *. split; [exact H1|]. split.
    + intros j Hj. apply H2, Hin, Hj.
    + intros Hc j Hj. destruct (H3 j (proj2 (Hin j) Hj)) as (x & X1 & X2). rewrite X1. f_equal.
      destruct X2 as [->|[_ ->]]; [|reflexivity]. apply Hc. apply Nat.mod_upper_bound. exact H0.
  - split; [apply prefix_inv_0|]. exists (fun _ => false). cbn [g_core g_ben]. split; [|split; intros j []].
    split; [exact Hl|]. intros b Hbc. rewrite Hb. split; [constructor|]. split; [intros m i []|intros m i []].
Qed.
End L.
