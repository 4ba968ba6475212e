(** Lemmas on the algorithms: combineMutations and a Step of modifiedGenetic. *)
From Coq Require Import ZArith Reals List Bool Arith Lia Lra Permutation Sorted.
From Flocq Require Import IEEE754.BinarySingleNaN.
From Verif Require Import GoNum M_Norm M_Slice M_Algo S_Norm S_Algo L_Norm L_Slice L_Algo L_Algo2 L_Algo3 L_Algo4.
Import ListNotations.

Lemma apply_muts_cons m ms pts : apply_muts (m :: ms) pts = match put (m_idx m) (m_new m) pts with None => None | Some l => apply_muts ms l end.
Proof.
  unfold apply_muts. cbn [fold_left]. destruct (put (m_idx m) (m_new m) pts); [reflexivity|].
  induction ms as [|a t IH]; [reflexivity|exact IH].
Qed.
Lemma apply_muts_spec ms : forall pts pts', NoDup (map m_idx ms) -> apply_muts ms pts = Some pts' ->
  length pts' = length pts /\ (forall k, ~ In k (map m_idx ms) -> nth_error pts' k = nth_error pts k) /\
  (forall m, In m ms -> nth_error pts' (m_idx m) = Some (m_new m)).
Proof.
  induction ms as [|m ms IH]; intros pts pts' ND.
  - intros H; inversion H; subst. repeat split; auto. intros m [].
  - rewrite apply_muts_cons. destruct (put (m_idx m) (m_new m) pts) as [p1|] eqn:Ep; [|discriminate].
    apply put_inv in Ep as [Hi ->]. cbn [map] in ND. inversion ND as [|? ? Hn ND']; subst. intros H.
    apply IH in H as (H1 & H2 & H3); [|exact ND']. rewrite L_Slice.set_nth_length in H1. split; [exact H1|]. split.
    + intros k Hk. cbn [map In] in Hk. rewrite H2 by tauto. rewrite L_Slice.set_nth_error.
      destruct (Nat.eqb_spec (m_idx m) k); [tauto|reflexivity].
    + intros m' [<-|Hm]; [|apply H3, Hm]. rewrite H2 by exact Hn. rewrite L_Slice.set_nth_error, Nat.eqb_refl, (proj2 (Nat.ltb_lt _ _) Hi). reflexivity.
Qed.

Section L.
Context {E : Type} (ev : evaluator E).

Definition cframe (c0 c : core E) : Prop :=
  c_pop c = c_pop c0 /\ c_newpop c = c_newpop c0 /\ c_best c = c_best c0 /\
  c_bestfit c = c_bestfit c0 /\ c_gen c = c_gen c0 /\ length (c_store c) = length (c_store c0) /\
  length (c_muts c) = length (c_muts c0) /\ length (c_fits c) = length (c_fits c0).
Lemma cframe_trans a b c : cframe a b -> cframe b c -> cframe a c.
Proof. unfold cframe. intuition congruence. Qed.

(** What combineMutations does to member k. *)
Definition combined (cutoff : nat) (c c' : core E) (ben : list bmuts) (k : nat) : Prop :=
  let bm := nth (k mod cutoff) ben [] in
  (bm = [] /\ buf c' (nth k (c_pop c) 0%nat) = buf c (nth k (c_pop c) 0%nat) /\ nth k (c_fits c') f0 = f0) \/
  (bm <> [] /\ apply_muts (map fst bm) (buf c (nth (k mod cutoff) (c_pop c) 0%nat)) = Some (buf c' (nth k (c_pop c) 0%nat)) /\
   exists e e', ev_calc ev e k (buf c' (nth k (c_pop c) 0%nat)) (map fst bm) = Some (e', nth k (c_fits c') f0)).

Lemma combine_one_spec cutoff n l i g r g' r' : shape n l (g_core g) -> (i < n)%nat -> combine_one ev cutoff i (g, r) = Some (g', r') ->
  g_ben g' = g_ben g /\ cframe (g_core g) (g_core g') /\
  (forall a, a <> nth i (c_pop (g_core g)) 0%nat -> buf (g_core g') a = buf (g_core g) a) /\
  (forall k, k <> i -> nth k (c_fits (g_core g')) f0 = nth k (c_fits (g_core g)) f0) /\
  combined cutoff (g_core g) (g_core g') (g_ben g) i.
Proof.
  intros Hs Hi. destruct g as [c ben]. cbn [g_core g_ben] in *. unfold combine_one. cbn [g_core g_ben].
  destruct (put i [] (c_muts c)) as [m0|] eqn:Em; [|discriminate]. apply put_inv in Em as [Hm ->].
  unfold get_base. destruct (Nat.eqb_spec cutoff 0) as [|H0]; [discriminate|].
  destruct (nth_error (c_pop c) i) as [a|] eqn:Ea; [|discriminate].
  destruct (nth_error ben (i mod cutoff)) as [bm|] eqn:Eb; [|discriminate].
  assert (Hai : nth i (c_pop c) 0%nat = a) by (apply nth_error_nth, Ea).
  assert (Har : (a < length (c_store c))%nat) by (apply (sh_range _ _ _ Hs); right; apply in_or_app; left; apply (nth_error_In _ _ Ea)).
  assert (Hbm : nth (i mod cutoff) ben [] = bm) by (apply nth_error_nth, Eb).
  destruct bm as [|b0 bt].
  - destruct (put i f0 (c_fits c)) as [fs|] eqn:Ef; cbn [option_map]; [|discriminate]. apply put_inv in Ef as [Hf ->].
    intros H; inversion H; subst g' r'; clear H. cbn [g_core g_ben].
    split; [reflexivity|]. split; [unfold cframe; cbn [g_core with_muts with_fits with_ev with_store c_pop c_newpop c_best c_bestfit c_gen c_store c_muts c_fits]; rewrite !L_Slice.set_nth_length; repeat split|].
    split; [reflexivity|]. split.
    + intros k Hk. cbn [c_fits with_muts with_fits with_ev with_store]. rewrite nth_set_nth. destruct (Nat.eqb_spec i k); [congruence|reflexivity].
    + left. rewrite Hbm. split; [reflexivity|]. split; [reflexivity|]. cbn [c_fits with_muts with_fits with_ev with_store]. rewrite nth_set_nth, Nat.eqb_refl, (proj2 (Nat.ltb_lt _ _) Hf). reflexivity.
  - set (bm := b0 :: bt) in *.
    destruct (nth_error (c_pop c) (i mod cutoff)) as [ab|] eqn:Eab; [|discriminate].
    destruct (ev_base ev (c_ev c) i (i mod cutoff)) as [e1|]; [|discriminate].
    unfold buf_set. destruct (length (nth a (c_store c) []) =? length (nth ab (c_store c) []))%nat; [|discriminate].
    rewrite nth_set_nth, Nat.eqb_refl, (proj2 (Nat.ltb_lt _ _) Har). cbn [andb].
    destruct (apply_muts (map fst bm) (nth ab (c_store c) [])) as [pts|] eqn:Eap; [|discriminate].
    destruct (ev_calc ev e1 i pts (map fst bm)) as [[e2 f]|] eqn:Ec; [|discriminate].
    destruct (put i f (c_fits c)) as [fs|] eqn:Ef; [|discriminate]. apply put_inv in Ef as [Hf ->].
    destruct (ev_update ev e2 i) as [e3|]; [|discriminate].
    intros H; inversion H; subst g' r'; clear H. cbn [g_core g_ben].
    split; [reflexivity|]. split; [unfold cframe; cbn [g_core with_muts with_fits with_ev with_store c_pop c_newpop c_best c_bestfit c_gen c_store c_muts c_fits]; rewrite !L_Slice.set_nth_length; repeat split|].
    split; [|split].
    + intros x Hx. unfold buf. cbn [c_store with_muts with_fits with_ev with_store]. rewrite set_nth_twice, nth_set_nth. destruct (Nat.eqb_spec a x); [congruence|reflexivity].
    + intros k Hk. cbn [c_fits with_muts with_fits with_ev with_store]. rewrite nth_set_nth. destruct (Nat.eqb_spec i k); [congruence|reflexivity].
    + right. rewrite Hbm. split; [discriminate|].
      assert (Hb' : forall q x y z u v w t, buf (Core (set_nth a pts (set_nth a q (c_store c))) x y z u v w t e3) (nth i (c_pop c) 0%nat) = pts).
      { intros. unfold buf. cbn [c_store]. rewrite Hai, set_nth_twice, nth_set_nth, Nat.eqb_refl, (proj2 (Nat.ltb_lt _ _) Har). reflexivity. }
      unfold with_ev, with_muts, with_fits, with_store. cbn [c_store c_pop c_newpop c_best c_fits c_muts c_bestfit c_gen c_ev].
      rewrite Hb'. split; [unfold buf; rewrite (nth_error_nth _ _ 0%nat Eab); exact Eap|].
      exists e1, e2. cbn [c_fits with_muts with_fits with_ev with_store]. rewrite nth_set_nth, Nat.eqb_refl, (proj2 (Nat.ltb_lt _ _) Hf). exact Ec.
Qed.

(** Lengths of the buffers are kept when the mutations apply. *)
Lemma combined_shape n l cutoff (c c' : core E) ben i : shape n l c -> (i < n)%nat -> (cutoff <> 0)%nat -> (cutoff <= n)%nat -> cframe c c' ->
  (forall b, NoDup (idxs (nth b ben []))) ->
  (forall a, a <> nth i (c_pop c) 0%nat -> buf c' a = buf c a) -> combined cutoff c c' ben i -> shape n l c'.
Proof.
  intros Hs Hi H0 Hcn (F1 & F2 & F3 & F4 & F5 & F6 & F7 & F8) Hnd Hb Hc.
  assert (Hall : forall a, In a (c_best c :: c_pop c ++ c_newpop c) -> length (buf c' a) = l).
  { intros a Ha. destruct (Nat.eq_dec a (nth i (c_pop c) 0%nat)) as [->|Hne]; [|rewrite Hb by exact Hne; apply (sh_points _ _ _ Hs), Ha].
    destruct Hc as [(_ & Hc & _)|(_ & Hc & _)]; [rewrite Hc; apply (sh_points _ _ _ Hs), Ha|].
    apply apply_muts_spec in Hc as (Hl & _); [|rewrite map_map; apply Hnd]. rewrite Hl.
    apply (sh_points _ _ _ Hs). right. apply in_or_app. left. apply nth_In. rewrite (sh_pop _ _ _ Hs).
    pose proof (Nat.mod_upper_bound i cutoff H0). lia. }
  constructor; rewrite ?F1, ?F2, ?F3, ?F6, ?F7, ?F8; try apply Hs. exact Hall.
Qed.

Lemma nth_pop_inj n l (c : core E) i j : shape n l c -> (i < n)%nat -> (j < n)%nat -> nth i (c_pop c) 0%nat = nth j (c_pop c) 0%nat -> i = j.
Proof.
  intros Hs Hi Hj. pose proof (sh_distinct _ _ _ Hs) as ND. inversion ND as [|? ? _ ND']; subst.
  assert (ND1 : NoDup (c_pop c)) by (clear - ND'; induction (c_pop c) as [|a t IH]; [constructor|cbn in ND'; inversion ND' as [|? ? Ha Ht]; subst; constructor; [intros Hx; apply Ha, in_or_app; auto|apply IH, Ht]]).
  intros H. apply (proj1 (NoDup_nth _ 0%nat) ND1); [rewrite (sh_pop _ _ _ Hs); lia..|exact H].
Qed.

Lemma combine_muts_spec cutoff n l m : (cutoff <> 0)%nat -> (cutoff <= n)%nat -> forall i g r g' r', shape n l (g_core g) -> (i + m = n)%nat ->
  (forall b, NoDup (idxs (nth b (g_ben g) []))) ->
  (forall b, (b < cutoff)%nat -> nth b (g_ben g) [] <> [] -> (b < i)%nat) ->
  combine_muts ev cutoff m i (g, r) = Some (g', r') ->
  g_ben g' = g_ben g /\ shape n l (g_core g') /\ cframe (g_core g) (g_core g') /\
  (forall a, (forall k, (i <= k < n)%nat -> a <> nth k (c_pop (g_core g)) 0%nat) -> buf (g_core g') a = buf (g_core g) a) /\
  (forall k, ~ (i <= k < n)%nat -> nth k (c_fits (g_core g')) f0 = nth k (c_fits (g_core g)) f0) /\
  (forall k, (i <= k < n)%nat -> combined cutoff (g_core g) (g_core g') (g_ben g) k).
Proof.
  intros H0 Hcn. induction m as [|m IH]; intros i g r g' r' Hs Him Hnd Hne; cbn [combine_muts].
  - intros H; inversion H; subst. split; [reflexivity|]. split; [exact Hs|]. split; [unfold cframe; repeat split|].
    repeat split; try reflexivity. intros k Hk. lia.
  - destruct (combine_one ev cutoff i (g, r)) as [[g1 r1]|] eqn:E1; [|discriminate]. intros H.
    apply (combine_one_spec cutoff n l) in E1 as (B1 & B2 & B3 & B4 & B5); [|exact Hs|lia].
    assert (Hs1 : shape n l (g_core g1)) by (apply (combined_shape n l cutoff (g_core g) (g_core g1) (g_ben g) i); try assumption; lia).
    pose proof B2 as (F1 & F2 & F3 & F4 & F5 & F6 & F7 & F8).
    apply IH in H as (C1 & C2 & C3 & C4 & C5 & C6); [|exact Hs1|lia|rewrite B1; exact Hnd|rewrite B1; intros b Hb Hb2; specialize (Hne b Hb Hb2); lia].
    split; [congruence|]. split; [exact C2|]. split; [apply (cframe_trans _ _ _ B2 C3)|]. split; [|split].
    + intros a Ha. rewrite C4; [apply B3, Ha; lia|]. intros k Hk. rewrite F1. apply Ha. lia.
    + intros k Hk. rewrite C5 by lia. apply B4. lia.
    + intros k Hk. destruct (Nat.eq_dec k i) as [->|Hki].
      * assert (Hkeep : buf (g_core g') (nth i (c_pop (g_core g)) 0%nat) = buf (g_core g1) (nth i (c_pop (g_core g)) 0%nat)).
        { apply C4. intros k' Hk'. rewrite F1. intros Heq. apply (nth_pop_inj n l _ _ _ Hs) in Heq; lia. }
        unfold combined in *. rewrite Hkeep, (C5 i) by lia. exact B5.
      * assert (Hk1 : (S i <= k < n)%nat) by lia. specialize (C6 k Hk1). unfold combined in *. rewrite B1, F1 in C6.
        assert (Hkk : nth k (c_pop (g_core g)) 0%nat <> nth i (c_pop (g_core g)) 0%nat)
          by (intros Heq; apply (nth_pop_inj n l _ _ _ Hs) in Heq; lia).
        rewrite (B3 _ Hkk) in C6.
        destruct C6 as [C6|(C6 & C7 & C8)]; [left; exact C6|right]. split; [exact C6|]. split; [|exact C8].
        rewrite B3 in C7; [exact C7|]. intros Heq.
        pose proof (Nat.mod_upper_bound k cutoff H0) as Hmb. specialize (Hne (k mod cutoff)%nat Hmb C6).
        apply (nth_pop_inj n l _ _ _ Hs) in Heq; lia.
Qed.

Lemma In_mut_dec (k : nat) (ms : bmuts) : (exists m i, In (m, i) ms /\ m_idx m = k) \/ ~ In k (idxs ms).
Proof.
  destruct (in_dec Nat.eq_dec k (idxs ms)) as [H|H]; [left|right; exact H].
  unfold idxs in H. apply in_map_iff in H as ([m i] & H1 & H2). exists m, i. auto.
Qed.

Lemma ben_combines cutoff lim (c : core E) imp F s ben b base pts : (b < cutoff)%nat -> (forall i, In (Recv i) s <-> (i < lim)%nat) ->
  (forall j, (j < lim)%nat -> imp j = true -> is_nan (nth j F f0) = false) ->
  ben_inv cutoff c imp F s ben -> apply_muts (map fst (nth b ben [])) base = Some pts ->
  combines cutoff lim imp (fun i => nth i (c_muts c) []) F b base pts.
Proof.
  intros Hb Hin Hnan [_ H] Hap. destruct (H b Hb) as (H1 & H2 & H3). set (bm := nth b ben []) in *.
  apply apply_muts_spec in Hap as (A1 & A2 & A3); [|rewrite map_map; exact H1].
  split; [exact A1|]. intros k. split.
  - intros Hno. apply A2. rewrite map_map. intros Hk. destruct (In_mut_dec k bm) as [(m & i & Q1 & Q2)|Q]; [|apply Q; exact Hk].
    destruct (H2 m i Q1) as (R1 & R2 & R3 & R4). apply (Hno i m). repeat split; try assumption. apply Hin, R1.
  - intros (i & m & (Q1 & Q2 & Q3 & Q4 & Q5)).
    destruct (H3 m i (proj2 (Hin i) Q1) Q2 Q3 Q4) as (m' & i' & R1 & R2 & R3).
    destruct (H2 m' i' R1) as (T1 & T2 & T3 & T4).
    exists i', m'. split; [repeat split; try assumption; [apply Hin, T1|congruence]|]. split.
    + rewrite <- Q5, <- R2. apply A3. apply in_map_iff. exists (m', i'). split; [reflexivity|exact R1].
    + intros i2 m2 (U1 & U2 & U3 & U4 & U5).
      destruct (H3 m2 i2 (proj2 (Hin i2) U1) U2 U3 U4) as (m3 & i3 & V1 & V2 & V3).
      assert (Heq : (m3, i3) = (m', i')).
      { assert (Hk : m_idx m3 = m_idx m') by congruence. clear - H1 V1 R1 Hk. unfold idxs in H1.
        induction bm as [|[mm ii] t IH]; [destruct V1|]. cbn [map fst] in H1. inversion H1 as [|? ? Hn Ht]; subst.
        destruct V1 as [V1|V1], R1 as [R1|R1].
        - congruence.
        - inversion V1; subst. exfalso. apply Hn. apply in_map_iff. exists (m', i'). cbn [fst]. split; [congruence|exact R1].
        - inversion R1; subst. exfalso. apply Hn. apply in_map_iff. exists (m3, i3). cbn [fst]. split; [congruence|exact V1].
        - apply IH; assumption. }
      inversion Heq; subst. exact V3.
Qed.

Lemma shape_next n l (c : core E) : shape n l (next_gen c) <-> shape n l c.
Proof. split; intros []; constructor; assumption. Qed.

Lemma ben_nodup cutoff (c : core E) imp F s ben b : ben_inv cutoff c imp F s ben -> NoDup (idxs (nth b ben [])).
Proof.
  intros [Hl H]. destruct (Nat.lt_ge_cases b cutoff) as [Hb|Hb]; [apply (H b Hb)|].
  rewrite nth_overflow by lia. constructor.
Qed.

(** The state after combineMutations and before the sort. *)
Record gathered (cutoff n l : nat) (mu : mutator) (c c3 : core E) (bet : nat -> bool) (fs : list f64) : Prop := {
  ga_shape : shape n l c3; ga_square : in_square c3;
  ga_best : c_best c3 = c_best c; ga_gen : c_gen c3 = c_gen c; ga_len : length fs = n; ga_fits : c_fits c3 = fs;
  ga_lim : (cutoff < n)%nat;
  ga_plain : forall i, (i < n - cutoff)%nat -> nth i (members c3) [] = tgt mu cutoff c i /\
    exists e e', ev_calc ev e i (tgt mu cutoff c i) (tlog mu cutoff c i) = Some (e', nth i fs f0);
  ga_bases : forall i, (i < cutoff)%nat -> nth i (members c3) [] = tgt mu cutoff c i;
  ga_comb : forall i, (n - cutoff <= i < n)%nat ->
    (nth i fs f0 = f0 /\ (forall k j m, ~ candidate cutoff (n - cutoff) bet (tlog mu cutoff c) (i mod cutoff) k j m) /\
     nth i (members c3) [] = if (i <? cutoff)%nat then tgt mu cutoff c i else buf c (nth i (c_newpop c) 0%nat)) \/
    (combines cutoff (n - cutoff) bet (tlog mu cutoff c) fs (i mod cutoff) (tgt mu cutoff c (i mod cutoff)) (nth i (members c3) []) /\
     (exists k j m, candidate cutoff (n - cutoff) bet (tlog mu cutoff c) (i mod cutoff) k j m) /\
     exists e e' log, ev_calc ev e i (nth i (members c3) []) log = Some (e', nth i fs f0));
  ga_bet : (forall b, (b < cutoff)%nat -> (b < n - cutoff)%nat -> nth b (c_fits c) f0 = nth b fs f0) ->
    forall j, (j < n - cutoff)%nat -> bet j = flt (nth (j mod cutoff) fs f0) (nth j fs f0) \/ tlog mu cutoff c j = [] }.

Lemma genetic_step_spec cutoff mu s sw n l c ben g' r : (cutoff <> 0)%nat -> shape n l c -> in_square c -> mutator_ok mu -> valid_schedule (n - cutoff) s ->
  length ben = cutoff ->
  genetic_step ev cutoff mu s sw (MGen c ben) = Some (g', r) ->
  length (g_ben g') = cutoff /\
  shape n l (g_core g') /\ in_square (g_core g') /\ c_best (g_core g') = c_best c /\ c_gen (g_core g') = (c_gen c + 1)%Z /\
  nth (c_best (g_core g')) (c_store (g_core g')) [] = nth 0 (members (g_core g')) [] /\ c_bestfit (g_core g') = nth 0 (c_fits (g_core g')) f0 /\
  exists c3 bet fs, gathered cutoff n l mu c c3 bet fs /\
    Permutation (combine (members (g_core g')) (c_fits (g_core g'))) (combine (members c3) fs).
Proof.
  intros H0 Hs Hq Hmu Hv Hben. unfold genetic_step. cbn [g_core g_ben]. rewrite (sh_pop _ _ _ Hs).
  destruct (new_generation ev mu cutoff (n - cutoff) c) as [c1|] eqn:E1; [|discriminate].
  apply (new_generation_shape ev mu cutoff (n - cutoff) n l c c1 H0 Hs Hq Hmu) in E1
    as (G1 & G2 & G3 & G4 & G5 & G6 & G7 & G8 & G9 & G10 & G11 & G12 & G13 & G14).
  unfold g_calc. cbn [g_core]. rewrite (sh_pop _ _ _ G1). destruct (Nat.leb_spec n cutoff) as [|Hcn]; [discriminate|].
  destruct (g_acts ev cutoff s (MGen c1 (map (fun _ => []) ben), [])) as [[g2 r2]|] eqn:E2; [|discriminate].
  pose proof (g_acts_core ev cutoff s _ _ _ _ E2) as E2c. cbn [g_core] in E2c.
  apply (gather ev (n - cutoff) s c1 (g_core g2) r2 Hv) in E2c as (S & T1 & T2 & T3).
  apply (g_gather ev cutoff (n - cutoff) s c1 _ g2 r2) in E2 as (imp & I1 & I2 & I3); [|exact H0|exact Hv|rewrite map_length; exact Hben|].
  2: { intros b. destruct (nth_in_or_default b (map (fun _ : bmuts => @nil (mut * nat)) ben) []) as [Hi|He]; [|exact He].
       apply in_map_iff in Hi as (x & Hx & _). symmetry. exact Hx. }
  assert (Hv' := valid_ordered _ _ Hv). destruct Hv' as [_ Hrecv].
  destruct (combine_muts ev cutoff cutoff (n - cutoff) (g2, r2)) as [[g3 r3]|] eqn:E3; [|discriminate].
  assert (Hs2 : shape n l (g_core g2)) by (apply (static_shape n l c1 _ S G1)).
  assert (Hq2 : in_square (g_core g2)) by (apply (static_square c1 _ S G2)).
  assert (Hbig : forall b m i, (b < cutoff)%nat -> In (m, i) (nth b (g_ben g2) []) -> (cutoff <= i < n - cutoff)%nat /\ In m (tlog mu cutoff c i)).
  { intros b m i Hb Hin. destruct I1 as [_ I1]. destruct (I1 b Hb) as (_ & Q & _). destruct (Q m i Hin) as (Q1 & Q2 & Q3 & Q4).
    apply Hrecv in Q1. rewrite (proj2 (G12 i ltac:(lia))) in Q4. split; [|exact Q4]. split; [|exact Q1].
    unfold tlog in Q4. destruct (Nat.ltb_spec i cutoff); [destruct Q4|assumption]. }
  assert (Hne : forall b, (b < cutoff)%nat -> nth b (g_ben g2) [] <> [] -> (b < n - cutoff)%nat).
  { intros b Hb Hb2. destruct (nth b (g_ben g2) []) as [|[m i] t] eqn:Eb; [congruence|].
    destruct (Hbig b m i Hb) as [Q _]; [rewrite Eb; left; reflexivity|]. lia. }
  apply (combine_muts_spec cutoff n l cutoff H0) in E3 as (C1 & C2 & C3 & C4 & C5 & C6); [|lia|exact Hs2|lia|intros b; apply (ben_nodup _ _ _ _ _ _ _ I1)|exact Hne].
  destruct (update_fitnesses ev sw (g_core g3)) as [c4|] eqn:E4; cbn [option_map]; [|discriminate].
  intros H; inversion H; subst g' r; clear H. cbn [g_core g_ben].
  pose proof S as (S1 & S2 & S3 & S4 & S5 & S6 & S7 & S8).
  pose proof C3 as (F1 & F2 & F3 & F4 & F5 & F6 & F7 & F8).
  assert (Hmem2 : forall i, (i < n)%nat -> nth i (members (g_core g2)) [] = buf (g_core g2) (nth i (c_pop (g_core g2)) 0%nat)).
  { intros i Hi. apply members_nth. rewrite (sh_pop _ _ _ Hs2). exact Hi. }
  assert (Hmem3 : forall i, (i < n)%nat -> nth i (members (g_core g3)) [] = buf (g_core g3) (nth i (c_pop (g_core g2)) 0%nat)).
  { intros i Hi. rewrite members_nth by (rewrite (sh_pop _ _ _ C2); exact Hi). rewrite F1. reflexivity. }
  assert (Hm12 : members (g_core g2) = members c1) by (apply static_members, S).
  assert (Hplain : forall i, (i < n - cutoff)%nat -> nth i (members (g_core g3)) [] = tgt mu cutoff c i).
  { intros i Hi. rewrite Hmem3 by lia. rewrite C4; [|intros k Hk Heq; apply (nth_pop_inj n l _ _ _ Hs2) in Heq; lia].
    rewrite <- Hmem2 by lia. rewrite Hm12. apply G12. lia. }
  assert (Hcomb : forall i, (n - cutoff <= i < n)%nat -> nth (i mod cutoff) (g_ben g2) [] <> [] ->
    combines cutoff (n - cutoff) imp (tlog mu cutoff c) (c_fits (g_core g2)) (i mod cutoff) (tgt mu cutoff c (i mod cutoff)) (nth i (members (g_core g3)) [])).
  { intros i Hi Hnb. pose proof (Nat.mod_upper_bound i cutoff H0) as Hmb.
    destruct (C6 i Hi) as [(Q & _)|(_ & Q & _)]; [contradiction|].
    rewrite <- Hmem2, Hm12, <- Hmem3 in Q by lia. rewrite (proj1 (G12 (i mod cutoff)%nat ltac:(lia))) in Q.
    apply (ben_combines cutoff (n - cutoff) c1 imp (c_fits (g_core g2)) s (g_ben g2) _ _ _ Hmb Hrecv I2 I1) in Q.
    destruct Q as [Q1 Q2]. split; [exact Q1|]. intros k. destruct (Q2 k) as [Q3 Q4].
    assert (Hcand : forall j m, candidate cutoff (n - cutoff) imp (fun i => nth i (c_muts c1) []) (i mod cutoff) k j m <->
                           candidate cutoff (n - cutoff) imp (tlog mu cutoff c) (i mod cutoff) k j m).
    { intros j m. unfold candidate. split; intros (U1 & U2 & U3 & U4 & U5); (repeat split; try assumption);
        rewrite (proj2 (G12 j ltac:(lia))) in *; assumption. }
    split.
    - intros Hno. apply Q3. intros j m Hc. apply (Hno j m), Hcand, Hc.
    - intros (j & m & Hc). destruct Q4 as (j' & m' & V1 & V2 & V3); [exists j, m; apply Hcand, Hc|].
      exists j', m'. split; [apply Hcand, V1|]. split; [exact V2|]. intros j2 m2 Hc2. apply V3 with (m' := m2), Hcand, Hc2. }
  assert (Hfits : forall i, (i < n - cutoff)%nat -> nth i (c_fits (g_core g3)) f0 = nth i (c_fits (g_core g2)) f0).
  { intros i Hi. apply C5. lia. }
  (* square *)
  assert (Htunit : forall i, (i < n)%nat -> (i < Nat.max cutoff (n - cutoff))%nat -> Forall pt_in_unit (tgt mu cutoff c i)).
  { intros i Hi Hm. rewrite <- (proj1 (G12 i Hm)). rewrite members_nth by (rewrite (sh_pop _ _ _ G1); exact Hi).
    apply G2. right. apply in_or_app. left. apply nth_In. rewrite (sh_pop _ _ _ G1). exact Hi. }
  assert (Hlogunit : forall i m, (cutoff <= i < n - cutoff)%nat -> In m (tlog mu cutoff c i) -> pt_in_unit (m_new m)).
  { intros i m Hi Hm. pose proof (Htunit i ltac:(lia) ltac:(lia)) as Hu. unfold tgt, tlog in Hm, Hu.
    destruct (Nat.ltb_spec i cutoff); [lia|].
    set (j := ((i - cutoff) mod cutoff)%nat) in *.
    assert (Hj : (j < n)%nat) by (pose proof (Nat.mod_upper_bound (i - cutoff) cutoff H0); lia).
    destruct (Hmu i (buf c (nth j (c_pop c) 0%nat))) as [Hel _].
    { apply Hq. right. apply in_or_app. left. apply nth_In. rewrite (sh_pop _ _ _ Hs). exact Hj. }
    destruct (el_entry _ _ _ Hel m Hm) as [_ He]. apply nth_error_In in He. rewrite Forall_forall in Hu. apply Hu, He. }
  assert (Hq3 : in_square (g_core g3)).
  { intros a Ha. fold (buf (g_core g3) a). rewrite F1, F2, F3 in Ha.
    destruct (in_dec Nat.eq_dec a (map (fun k => nth k (c_pop (g_core g2)) 0%nat) (seq (n - cutoff) cutoff))) as [Hin|Hout].
    - apply in_map_iff in Hin as (k & <- & Hk). apply in_seq in Hk. assert (Hk' : (n - cutoff <= k < n)%nat) by lia.
      destruct (C6 k Hk') as [(_ & Q & _)|(Q & _)]; [rewrite Q; apply Hq2, Ha|].
      pose proof (Hcomb k Hk' Q) as [R1 R2]. rewrite Hmem3 in R1, R2 by lia.
      pose proof (Nat.mod_upper_bound k cutoff H0) as Hmb.
      apply Forall_forall. intros p Hp. apply In_nth_error in Hp as [x Hx]. destruct (R2 x) as [R3 R4].
      destruct (In_mut_dec x (nth (k mod cutoff) (g_ben g2) [])) as [(m & i & U1 & U2)|U].
      + destruct R4 as (i' & m' & V1 & V2 & _).
        { destruct I1 as [_ I1]. destruct (I1 (k mod cutoff)%nat Hmb) as (_ & W & _). destruct (W m i U1) as (W1 & W2 & W3 & _).
          destruct (Hbig _ m i Hmb U1) as [X1 X2]. exists i, m. repeat split; try assumption. lia. }
        rewrite V2 in Hx. inversion Hx; subst p. destruct V1 as (V1 & V3 & V4 & V5 & V6).
        assert (cutoff <= i')%nat by (unfold tlog in V5; destruct (Nat.ltb_spec i' cutoff); [destruct V5|assumption]).
        apply (Hlogunit i' m'); [lia|exact V5].
      + rewrite R3 in Hx.
        * apply nth_error_In in Hx. pose proof (Htunit (k mod cutoff)%nat ltac:(lia) ltac:(lia)) as Hu. rewrite Forall_forall in Hu. apply Hu, Hx.
        * intros i m (V1 & V3 & V4 & V5 & V6). apply U. destruct I1 as [_ I1]. destruct (I1 (k mod cutoff)%nat Hmb) as (_ & _ & W).
          destruct (W m i) as (m' & i' & W1 & W2 & _); [apply Hrecv, V1|exact V3|exact V4|rewrite (proj2 (G12 i ltac:(lia))); exact V5|].
          unfold idxs. apply in_map_iff. exists (m', i'). split; [cbn [fst]; congruence|exact W1].
    - rewrite C4; [apply Hq2, Ha|]. intros k Hk ->. apply Hout. apply in_map_iff. exists k. split; [reflexivity|apply in_seq; lia]. }
  apply (finish ev sw (g_core g3) c4 n l C2 Hq3) in E4 as (U1 & U2 & U3 & U4 & U5 & U6 & U7 & U8).
  split; [rewrite C1; apply I1|]. split; [apply shape_next, U1|]. split; [exact U2|].
  split; [cbn [next_gen c_best]; congruence|]. split; [cbn [next_gen c_gen]; congruence|]. split; [exact U7|]. split; [exact U8|].
  exists (g_core g3), imp, (c_fits (g_core g3)). split; [|exact U6].
  assert (Hcandfit : forall b k, combines cutoff (n - cutoff) imp (tlog mu cutoff c) (c_fits (g_core g2)) b (tgt mu cutoff c b) (nth k (members (g_core g3)) []) ->
     combines cutoff (n - cutoff) imp (tlog mu cutoff c) (c_fits (g_core g3)) b (tgt mu cutoff c b) (nth k (members (g_core g3)) [])).
  { intros b k [Q1 Q2]. split; [exact Q1|]. intros x. destruct (Q2 x) as [Q3 Q4]. split; [exact Q3|]. intros Hx. destruct (Q4 Hx) as (i & m & V1 & V2 & V3).
    exists i, m. split; [exact V1|]. split; [exact V2|]. intros i' m' Hc. rewrite !Hfits by (apply Hc || apply V1). apply (V3 i' m' Hc). }
  constructor.
  - exact C2.
  - exact Hq3.
  - congruence.
  - congruence.
  - apply C2.
  - reflexivity.
  - exact Hcn.
  - intros i Hi. split; [apply Hplain, Hi|]. destruct (T1 i Hi) as (R1 & R2 & (e & e' & R3)). exists e, e'. rewrite Hfits by exact Hi.
    destruct (G12 i ltac:(lia)) as [Gm Gl]. rewrite <- Gm, <- Gl. rewrite members_nth by (rewrite (sh_pop _ _ _ G1); lia). exact R3.
  - intros i Hi. destruct (Nat.lt_ge_cases i (n - cutoff)) as [Hlt|Hge]; [apply Hplain, Hlt|].
    rewrite Hmem3 by lia. assert (Hi' : (n - cutoff <= i < n)%nat) by lia. destruct (C6 i Hi') as [(_ & Q & _)|(Q & _)].
    + rewrite Q, <- Hmem2, Hm12 by lia. apply G12. lia.
    + exfalso. rewrite Nat.mod_small in Q by lia. specialize (Hne i Hi Q). lia.
  - intros i Hi. pose proof (Nat.mod_upper_bound i cutoff H0) as Hmb. destruct (C6 i Hi) as [(Q1 & Q2 & Q3)|(Q1 & Q2 & Q3)].
    + left. split; [exact Q3|]. split; [|rewrite Hmem3, Q2, <- Hmem2, Hm12 by lia; destruct (Nat.ltb_spec i cutoff); [apply G12; lia|apply G13; lia]]. intros k j m (V1 & V2 & V3 & V4 & V5). destruct I1 as [_ I1]. destruct (I1 (i mod cutoff)%nat Hmb) as (_ & _ & W).
      destruct (W m j) as (m' & i' & W1 & _); [apply Hrecv, V1|exact V2|exact V3|rewrite (proj2 (G12 j ltac:(lia))); exact V4|].
      rewrite Q1 in W1. destruct W1.
    + right. split; [apply Hcandfit, Hcomb; assumption|]. split.
      { destruct (nth (i mod cutoff) (g_ben g2) []) as [|[m j] t] eqn:Eb; [congruence|].
        destruct I1 as [_ I1]. destruct (I1 (i mod cutoff)%nat Hmb) as (_ & W & _).
        assert (Hin : In (m, j) (nth (i mod cutoff) (g_ben g2) [])) by (rewrite Eb; left; reflexivity).
        destruct (W m j Hin) as (W1 & W2 & W3 & _). destruct (Hbig _ m j Hmb Hin) as [X1 X2].
        exists (m_idx m), j, m. repeat split; try assumption. lia. }
      destruct Q3 as (e & e' & Q3). rewrite <- Hmem3 in Q3 by lia. eauto.
  - intros Hcons j Hj. pose proof (Nat.mod_upper_bound j cutoff H0) as Hmb.
    destruct (Nat.lt_ge_cases j cutoff) as [Hjc|Hjc]; [right; unfold tlog; rewrite (proj2 (Nat.ltb_lt _ _) Hjc); reflexivity|left].
    rewrite !Hfits by lia. apply I3; [|exact Hj]. intros b Hb. rewrite G6. rewrite Hcons by lia. apply Hfits. lia.
Qed.
Lemma new_genetic_spec cutoff groups e s sw g r l : (cutoff <> 0)%nat -> Forall (fun g => length g = l /\ Forall pt_in_unit g) groups ->
  valid_schedule (length groups - cutoff) s ->
  new_genetic ev cutoff groups e s sw = Some (g, r) ->
  let n := length groups in
  length (g_ben g) = cutoff /\ (cutoff < n)%nat /\
  shape n l (g_core g) /\ in_square (g_core g) /\ c_gen (g_core g) = 0%Z /\
  nth (c_best (g_core g)) (c_store (g_core g)) [] = nth 0 (members (g_core g)) [] /\ c_bestfit (g_core g) = nth 0 (c_fits (g_core g)) f0 /\
  exists fs, length fs = n /\
    Permutation (combine (members (g_core g)) (c_fits (g_core g))) (combine groups fs) /\
    (forall i, (i < n - cutoff)%nat -> exists e e', ev_calc ev e i (nth i groups []) [] = Some (e', nth i fs f0)) /\
    (forall i, (n - cutoff <= i)%nat -> nth i fs f0 = f0).
Proof.
  cbv zeta. set (n := length groups). intros H0 Hf Hv. unfold new_genetic. destruct (init_core groups e) as [c1|] eqn:E1; [|discriminate].
  apply (init_core_spec groups e c1 l) in E1 as (G1 & G2 & G3 & G4 & G5 & G6 & G7); [|exact Hf]. fold n in G1, G6, G7, Hv.
  unfold g_calc. cbn [g_core]. rewrite (sh_pop _ _ _ G1). destruct (Nat.leb_spec n cutoff) as [|Hcn]; [discriminate|].
  destruct (g_acts ev cutoff s (MGen c1 (repeat [] cutoff), [])) as [[g2 r2]|] eqn:E2; [|discriminate].
  pose proof (g_acts_core ev cutoff s _ _ _ _ E2) as E2c. cbn [g_core] in E2c.
  apply (gather ev (n - cutoff) s c1 (g_core g2) r2 Hv) in E2c as (S & T1 & T2 & T3).
  apply (g_gather ev cutoff (n - cutoff) s c1 _ g2 r2) in E2 as (imp & I1 & I2 & I3); [|exact H0|exact Hv|apply repeat_length|intros b; apply nth_repeat].
  destruct (update_fitnesses ev sw (g_core g2)) as [c3|] eqn:E3; cbn [option_map]; [|discriminate].
  intros H; inversion H; subst g r; clear H. cbn [g_core g_ben].
  apply (finish ev sw (g_core g2) c3 n l) in E3 as (F1 & F2 & F3 & F4 & F5 & F6 & F7 & F8); [|apply (static_shape _ l c1 _ S G1)|apply (static_square c1 _ S G2)].
  pose proof S as (S1 & S2 & S3 & S4 & S5 & S6 & S7 & S8).
  split; [apply I1|]. split; [exact Hcn|]. split; [exact F1|]. split; [exact F2|]. split; [congruence|]. split; [exact F7|]. split; [exact F8|].
  exists (c_fits (g_core g2)). split; [rewrite S8; apply G1|]. split; [|split].
  - eapply Permutation_trans; [exact F6|]. rewrite (static_members c1 _ S), G3. apply Permutation_refl.
  - intros i Hi. destruct (T1 i Hi) as (R1 & R2 & (e1 & e' & R3)). exists e1, e'.
    rewrite <- (members_nth i c1) in R3 by (rewrite (sh_pop _ _ _ G1); lia). rewrite G3, G6 in R3. rewrite nth_repeat in R3. exact R3.
  - intros i Hi. rewrite T2 by lia. rewrite G7. apply nth_repeat.
Qed.

(** The combined member is determined by the members and their fitnesses, if these differ. *)
Lemma combines_unique cutoff lim bet logs F b base p q :
  (forall i, NoDup (map m_idx (logs i))) ->
  (forall k i j m m', candidate cutoff lim bet logs b k i m -> candidate cutoff lim bet logs b k j m' -> i <> j ->
     flt (nth i F f0) (nth j F f0) = true \/ flt (nth j F f0) (nth i F f0) = true) ->
  combines cutoff lim bet logs F b base p -> combines cutoff lim bet logs F b base q -> p = q.
Proof.
  intros Hnd Htie [P1 P2] [Q1 Q2]. apply nth_error_ext. intros k. destruct (P2 k) as [P3 P4]. destruct (Q2 k) as [Q3 Q4].
  assert (Hdec : (exists i m, candidate cutoff lim bet logs b k i m) \/ (forall i m, ~ candidate cutoff lim bet logs b k i m)).
  { clear. induction lim as [|lim IH].
    - right. intros i m (H & _). lia.
    - destruct IH as [(i & m & H1 & H2)|IH]; [left; exists i, m; split; [lia|exact H2]|].
      destruct (Nat.eq_dec (lim mod cutoff) b) as [Hb|Hb]; [|right; intros i m (H1 & H2 & H3); apply (IH i m); repeat split; try tauto; assert (i <> lim) by congruence; lia].
      destruct (bet lim) eqn:Eb; [|right; intros i m (H1 & H2 & H3 & H4); apply (IH i m); repeat split; try tauto; assert (i <> lim) by congruence; lia].
      destruct (in_dec Nat.eq_dec k (map m_idx (logs lim))) as [Hk|Hk].
      + left. apply in_map_iff in Hk as (m & Hm & Hin). exists lim, m. repeat split; try assumption. lia.
      + right. intros i m (H1 & H2 & H3 & H4 & H5). destruct (Nat.eq_dec i lim) as [->|Hne].
        * apply Hk. apply in_map_iff. exists m. auto.
        * apply (IH i m). repeat split; try assumption. lia. }
  destruct Hdec as [Hex|Hno]; [|rewrite P3, Q3 by exact Hno; reflexivity].
  destruct (P4 Hex) as (i & m & A1 & A2 & A3). destruct (Q4 Hex) as (j & m' & B1 & B2 & B3).
  destruct (Nat.eq_dec i j) as [->|Hne].
  - assert (m = m'); [|congruence]. destruct A1 as (_ & _ & _ & A4 & A5), B1 as (_ & _ & _ & B4 & B5).
    specialize (Hnd j). revert Hnd A4 B4. rewrite <- B5 in A5. revert A5. clear.
    induction (logs j) as [|x t IH]; [intros _ _ []|]; intros Hk Hnd [A|A] [B|B]; cbn [map] in *; inversion Hnd as [|? ? Hn Ht]; subst; try congruence.
    + exfalso. apply Hn. rewrite Hk. apply in_map, B.
    + exfalso. apply Hn. rewrite <- Hk. apply in_map, A.
    + apply IH; assumption.
  - specialize (A3 j m' B1). specialize (B3 i m A1). destruct A3 as (_ & _ & A3), B3 as (_ & _ & B3).
    destruct (Htie k i j m m' A1 B1 Hne) as [H|H]; congruence.
Qed.
End L.
