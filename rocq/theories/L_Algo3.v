(** Lemmas on the algorithms: a Step of simple. *)
From Coq Require Import ZArith Reals List Bool Arith Lia Lra Permutation.
From Flocq Require Import IEEE754.BinarySingleNaN.
From Verif Require Import GoNum M_Norm M_Slice M_Algo S_Norm S_Algo L_Norm L_Slice L_Algo L_Algo2 FloatLemmas.
Import ListNotations.

(** The order of the floats that are not NaN. *)
Definition frank (x : f64) : R * R :=   (* infinities first, then value *)
  match x with
  | B754_infinity true => (-1, 0)%R
  | B754_infinity false => (1, 0)%R
  | _ => (0, B2R x)%R
  end.
Lemma flt_rank x y : is_nan x = false -> is_nan y = false ->
  flt x y = true <-> (fst (frank x) < fst (frank y) \/ (fst (frank x) = fst (frank y) /\ snd (frank x) < snd (frank y)))%R.
Proof.
  intros Hx Hy.
  assert (Hfin : forall a b : f64, is_finite a = true -> is_finite b = true -> flt a b = true <-> (B2R a < B2R b)%R).
  { intros a b Ha Hb. split; intros H.
    - destruct (Rlt_or_le (B2R a) (B2R b)) as [Hl|Hl]; [exact Hl|]. rewrite (flt_fin_false a b Ha Hb Hl) in H. discriminate.
    - apply flt_fin_true; assumption. }
  destruct x as [sx|[|]| |sx mx ex Hbx]; try discriminate Hx; destruct y as [sy|[|]| |sy my ey Hby]; try discriminate Hy;
    try (rewrite Hfin by reflexivity; cbn [frank fst snd]; lra); cbn [frank fst snd];
    try (split; [intros H; vm_compute in H; discriminate|lra]); try (split; [lra|reflexivity]).
  all: try (split; [intros H; destruct sx; vm_compute in H; discriminate|lra]).
  all: try (split; [intros H; destruct sy; vm_compute in H; discriminate|lra]).
  all: split; [lra|reflexivity].
Qed.
Lemma not_above_refl x : is_nan x = false -> not_above x x.
Proof. intros H. repeat split; try exact H. destruct (flt x x) eqn:E; [|reflexivity]. apply flt_rank in E; [lra|exact H|exact H]. Qed.
Lemma not_above_trans x y z : not_above x y -> not_above y z -> not_above x z.
Proof.
  intros (X1 & Y1 & H1) (_ & Z1 & H2). repeat split; try assumption.
  destruct (flt z x) eqn:E; [|reflexivity]. apply flt_rank in E; [|assumption..].
  destruct (flt y x) eqn:E1; [discriminate|]. destruct (flt z y) eqn:E2; [discriminate|].
  assert (N1 : ~ (flt y x = true)) by congruence. assert (N2 : ~ (flt z y = true)) by congruence.
  rewrite flt_rank in N1, N2 by assumption. lra.
Qed.
Lemma not_above_total x y : is_nan x = false -> is_nan y = false -> not_above x y \/ flt y x = true.
Proof. intros Hx Hy. destruct (flt y x) eqn:E; [right; reflexivity|left; repeat split; assumption]. Qed.
Lemma flt_not_above x y : is_nan x = false -> is_nan y = false -> flt x y = true -> not_above x y.
Proof.
  intros Hx Hy H. repeat split; try assumption. destruct (flt y x) eqn:E; [|reflexivity].
  apply flt_rank in E; [|assumption..]. apply flt_rank in H; [|assumption..]. lra.
Qed.
Lemma flt_nan x y : flt x y = true -> is_nan x = false /\ is_nan y = false.
Proof. destruct x as [|[|]| |[|]], y as [|[|]| |[|]]; intros H; try (vm_compute in H; discriminate); split; reflexivity. Qed.

Section L.
Context {E : Type} (ev : evaluator E).

Lemma combine_map_l {A B C} (f : A -> C) (l : list A) (m : list B) : combine (map f l) m = map (fun p => (f (fst p), snd p)) (combine l m).
Proof. revert m; induction l as [|a t IH]; intros [|b m]; cbn; [reflexivity..|]. rewrite IH. reflexivity. Qed.
Lemma members_nth k (c : core E) : (k < length (c_pop c))%nat -> nth k (members c) [] = buf c (nth k (c_pop c) 0%nat).
Proof.
  intros Hk. unfold members, buf. rewrite (nth_indep _ [] (nth 0 (c_store c) [])) by (rewrite map_length; exact Hk).
  rewrite (map_nth (fun a => nth a (c_store c) [])). reflexivity.
Qed.

(** The end of a Step. *)
Lemma finish sw c c' n l : shape n l c -> in_square c -> update_fitnesses ev sw c = Some c' ->
  shape n l c' /\ in_square c' /\ c_best c' = c_best c /\ c_gen c' = c_gen c /\ (0 < n)%nat /\
  Permutation (combine (members c') (c_fits c')) (combine (members c) (c_fits c)) /\
  nth (c_best c') (c_store c') [] = nth 0 (members c') [] /\ c_bestfit c' = nth 0 (c_fits c') f0.
Proof.
  intros Hs Hq H. apply (update_rel ev sw c c' n l Hs) in H as (U1 & U2 & U3 & U4 & U5 & U6 & U7 & U8 & U9 & U10 & U11).
  pose proof (sh_distinct _ _ _ Hs) as ND. inversion ND as [|? ? Hb _]; subst.
  assert (Hb1 : nth (c_best c') (c_store c') [] = nth 0 (members c') []).
  { rewrite members_nth by (rewrite (sh_pop _ _ _ U1); exact U8). rewrite U2. exact U9. }
  assert (Hmem : members c' = map (buf c) (c_pop c')).
  { unfold members. apply map_ext_in. intros a Ha. apply U10. intros ->. apply Hb, in_or_app. left. apply (Permutation_in _ U6 Ha). }
  assert (H0 : In (nth 0 (c_pop c') 0%nat) (c_pop c)).
  { apply (Permutation_in _ U6), nth_In. rewrite (sh_pop _ _ _ U1). exact U8. }
  split; [exact U1|]. split; [|split; [exact U2|split; [exact U3|split; [exact U8|split; [|split; [exact Hb1|exact U11]]]]]].
  - intros a Ha. destruct (Nat.eq_dec a (c_best c)) as [->|Hne].
    + fold (buf c' (c_best c)). rewrite U9, U10 by (intros Heq; apply Hb, in_or_app; left; rewrite <- Heq; exact H0).
      apply Hq. right. apply in_or_app. auto.
    + fold (buf c' a). rewrite U10 by exact Hne. apply Hq. rewrite U2, U4 in Ha. cbn [In] in *. rewrite in_app_iff in *.
      destruct Ha as [Ha|[Ha|Ha]]; auto. right; left. apply (Permutation_in _ U6 Ha).
  - rewrite Hmem. unfold members. rewrite !combine_map_l. apply Permutation_map, U7.
Qed.

Lemma static_shape n l (c c' : core E) : static c c' -> shape n l c -> shape n l c'.
Proof.
  intros (S1 & S2 & S3 & S4 & S5 & S6 & S7 & S8) [H1 H2 H3 H4 H5 H6 H7].
  constructor; rewrite ?S1, ?S2, ?S3, ?S4, ?S5, ?S8; assumption.
Qed.
Lemma static_square (c c' : core E) : static c c' -> in_square c -> in_square c'.
Proof. intros (S1 & S2 & S3 & S4 & S5 & S6 & S7 & S8) H a. rewrite S1, S2, S3, S4. apply H. Qed.
Lemma static_members (c c' : core E) : static c c' -> members c' = members c.
Proof. intros (S1 & S2 & _). unfold members. rewrite S1, S2. reflexivity. Qed.

Lemma simple_step_spec cutoff mu s sw n l c c' r : (cutoff <> 0)%nat -> shape n l c -> in_square c -> mutator_ok mu -> valid_schedule n s ->
  simple_step ev cutoff mu s sw c = Some (c', r) ->
  shape n l c' /\ in_square c' /\ c_best c' = c_best c /\ c_gen c' = (c_gen c + 1)%Z /\ (cutoff <= n)%nat /\ (0 < n)%nat /\
  nth (c_best c') (c_store c') [] = nth 0 (members c') [] /\ c_bestfit c' = nth 0 (c_fits c') f0 /\
  exists fs, length fs = n /\
    Permutation (combine (members c') (c_fits c')) (combine (map (tgt mu cutoff c) (seq 0 n)) fs) /\
    forall i, (i < n)%nat -> result r i = Some (nth i fs f0) /\
      exists e e', ev_calc ev e i (tgt mu cutoff c i) (tlog mu cutoff c i) = Some (e', nth i fs f0).
Proof.
  intros H0 Hs Hq Hmu Hv. unfold simple_step.
  destruct (new_generation ev mu cutoff (length (c_pop c)) c) as [c1|] eqn:E1; [|discriminate].
  rewrite (sh_pop _ _ _ Hs) in E1.
  apply (new_generation_shape ev mu cutoff n n l c c1 H0 Hs Hq Hmu) in E1
    as (G1 & G2 & G3 & G4 & G5 & G6 & G7 & G8 & G9 & G10 & G11 & G12 & G13 & G14).
  unfold simple_calc. destruct (length (c_pop c1) =? 0)%nat; [discriminate|].
  destruct (do_acts ev s (c1, [])) as [[c2 r2]|] eqn:E2; [|discriminate].
  apply (gather ev n s c1 c2 r2 Hv) in E2 as (S & T1 & T2 & T3).
  destruct (update_fitnesses ev sw c2) as [c3|] eqn:E3; cbn [option_map]; [|discriminate].
  intros H; inversion H; subst; clear H.
  apply (finish sw c2 c3 n l) in E3 as (F1 & F2 & F3 & F4 & F5 & F6 & F7 & F8); [|apply (static_shape n l c1 c2 S G1)|apply (static_square c1 c2 S G2)].
  pose proof S as (S1 & S2 & S3 & S4 & S5 & S6 & S7 & S8).
  assert (Hm1 : members c1 = map (tgt mu cutoff c) (seq 0 n)).
  { apply nth_ext with (d := []) (d' := []); [unfold members; rewrite !map_length, seq_length; apply G1|].
    intros k Hk. unfold members in Hk. rewrite map_length, (sh_pop _ _ _ G1) in Hk.
    rewrite (proj1 (G12 k ltac:(lia))).
    rewrite (nth_indep _ [] (tgt mu cutoff c 0)) by (rewrite map_length, seq_length; exact Hk).
    rewrite map_nth, seq_nth by exact Hk. reflexivity. }
  split; [destruct F1; constructor; assumption|]. split; [exact F2|].
  split; [cbn [next_gen c_best]; congruence|]. split; [cbn [next_gen c_gen]; congruence|].
  split; [exact G8|]. split; [exact F5|]. split; [exact F7|]. split; [exact F8|].
  exists (c_fits c2). split; [rewrite S8; apply G1|]. split.
  - change (members (next_gen c3)) with (members c3). cbn [next_gen c_fits]. eapply Permutation_trans; [exact F6|].
    rewrite (static_members c1 c2 S), Hm1. apply Permutation_refl.
  - intros i Hi. destruct (T1 i Hi) as (R1 & R2 & (e & e' & R3)). split; [exact R1|]. exists e, e'.
    destruct (G12 i ltac:(lia)) as [Gm Gl]. rewrite <- Gm, <- Gl. rewrite members_nth by (rewrite (sh_pop _ _ _ G1); exact Hi). exact R3.
Qed.

Lemma nth_seq_app n k : (k < n)%nat -> nth k (seq 0 n) 0%nat = k.
Proof. intros H. rewrite seq_nth by exact H. reflexivity. Qed.

Lemma init_core_spec groups (e : E) c l : init_core groups e = Some c -> Forall (fun g => length g = l /\ Forall pt_in_unit g) groups ->
  shape (length groups) l c /\ in_square c /\ members c = groups /\ c_gen c = 0%Z /\ c_ev c = e /\ c_muts c = repeat [] (length groups) /\ c_fits c = repeat f0 (length groups).
Proof.
  intros H Hf. set (n := length groups).
  assert (Hc : exists g, In g groups /\ c = Core (groups ++ groups ++ [g]) (seq 0 n) (seq n n) (n + n) (repeat f0 n) (repeat [] n) f0 0 e).
  { unfold init_core in H. destruct groups as [|g t]; [discriminate|]. exists g. split; [left; reflexivity|]. inversion H. reflexivity. }
  clear H. destruct Hc as (g & Hg & ->). rewrite Forall_forall in Hf.
  assert (Hall : forall a, (a < n + n + 1)%nat -> In (nth a (groups ++ groups ++ [g]) []) groups).
  { intros a Ha. destruct (Nat.lt_ge_cases a n).
    - rewrite app_nth1 by assumption. apply nth_In. assumption.
    - rewrite app_nth2 by assumption. fold n. destruct (Nat.lt_ge_cases (a - n) n).
      + rewrite app_nth1 by assumption. apply nth_In. assumption.
      + rewrite app_nth2 by assumption. fold n. replace (a - n - n)%nat with 0%nat by lia. exact Hg. }
  assert (Hin : forall a, In a ((n + n)%nat :: seq 0 n ++ seq n n) -> (a < n + n + 1)%nat).
  { intros a [<-|Ha]; [lia|]. apply in_app_or in Ha as [Ha|Ha]; apply in_seq in Ha; lia. }
  assert (Hnd : NoDup ((n + n)%nat :: seq 0 n ++ seq n n)).
  { constructor.
    - intros Ha. apply in_app_or in Ha as [Ha|Ha]; apply in_seq in Ha; lia.
    - rewrite <- seq_app. apply seq_NoDup. }
  split; [|split; [|split; [|repeat split; reflexivity]]].
  - constructor; cbn [c_store c_newpop c_best c_muts c_pop c_fits]; rewrite ?seq_length, ?repeat_length; try reflexivity; try exact Hnd.
    + intros a Ha. rewrite !app_length. fold n. cbn [length]. specialize (Hin a Ha). lia.
    + intros a Ha. apply (Hf _ (Hall a (Hin a Ha))).
  - intros a Ha. cbn [c_store c_newpop c_best c_pop] in *. apply (Hf _ (Hall a (Hin a Ha))).
  - unfold members. cbn [c_store c_pop]. apply nth_ext with (d := []) (d' := []).
    + rewrite map_length, seq_length. reflexivity.
    + intros k Hk. rewrite map_length, seq_length in Hk.
      rewrite (nth_indep _ [] (nth 0 (groups ++ groups ++ [g]) [])) by (rewrite map_length, seq_length; exact Hk).
      rewrite (map_nth (fun a => nth a (groups ++ groups ++ [g]) [])), seq_nth by exact Hk. cbn [plus]. apply app_nth1. exact Hk.
Qed.

Lemma new_simple_spec groups e s sw c r l : Forall (fun g => length g = l /\ Forall pt_in_unit g) groups -> valid_schedule (length groups) s ->
  new_simple ev groups e s sw = Some (c, r) ->
  shape (length groups) l c /\ in_square c /\ (0 < length groups)%nat /\ c_gen c = 0%Z /\
  nth (c_best c) (c_store c) [] = nth 0 (members c) [] /\ c_bestfit c = nth 0 (c_fits c) f0 /\
  exists fs, length fs = length groups /\
    Permutation (combine (members c) (c_fits c)) (combine groups fs) /\
    forall i, (i < length groups)%nat -> result r i = Some (nth i fs f0) /\
      exists e e', ev_calc ev e i (nth i groups []) [] = Some (e', nth i fs f0).
Proof.
  intros Hf Hv. unfold new_simple. destruct (init_core groups e) as [c1|] eqn:E1; [|discriminate].
  apply (init_core_spec groups e c1 l) in E1 as (G1 & G2 & G3 & G4 & G5 & G6 & G7); [|exact Hf].
  unfold simple_calc. destruct (length (c_pop c1) =? 0)%nat; [discriminate|].
  destruct (do_acts ev s (c1, [])) as [[c2 r2]|] eqn:E2; [|discriminate].
  apply (gather ev _ s c1 c2 r2 Hv) in E2 as (S & T1 & T2 & T3).
  destruct (update_fitnesses ev sw c2) as [c3|] eqn:E3; cbn [option_map]; [|discriminate].
  intros H; inversion H; subst c3 r2; clear H.
  apply (finish sw c2 c (length groups) l) in E3 as (F1 & F2 & F3 & F4 & F5 & F6 & F7 & F8); [|apply (static_shape _ l c1 c2 S G1)|apply (static_square c1 c2 S G2)].
  pose proof S as (S1 & S2 & S3 & S4 & S5 & S6 & S7 & S8).
  split; [exact F1|]. split; [exact F2|]. split; [exact F5|]. split; [congruence|]. split; [exact F7|]. split; [exact F8|].
  exists (c_fits c2). split; [rewrite S8; apply G1|]. split.
  - eapply Permutation_trans; [exact F6|]. rewrite (static_members c1 c2 S), G3. apply Permutation_refl.
  - intros i Hi. destruct (T1 i Hi) as (R1 & R2 & (e1 & e' & R3)). split; [exact R1|]. exists e1, e'.
    rewrite <- (members_nth i c1) in R3 by (rewrite (sh_pop _ _ _ G1); exact Hi). rewrite G3, G6 in R3.
    rewrite nth_repeat in R3. exact R3.
Qed.
End L.
