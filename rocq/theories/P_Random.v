(** C56: NormFloat64. *)
From Coq Require Import ZArith Reals List Bool Lia Lra.
From Flocq Require Import Core IEEE754.BinarySingleNaN.
From Verif Require Import GoNum FloatLemmas L_F32 L_Norm M_Random.
Import ListNotations.
Open Scope Z_scope.

(** The constants are correctly rounded. *)
Lemma f32_quot_R m d : (Rabs (IZR (Zpos m) / IZR (Zpos d)) <= bpow radix2 100)%R ->
  is_finite (f32_quot m d) = true /\ B2R (f32_quot m d) = round radix2 (SpecFloat.fexp 24 128) ZnearestE (IZR (Zpos m) / IZR (Zpos d)).
Proof.
  intros H. unfold f32_quot. pose proof (proj2 (Bdiv_correct_aux 24 128 prec_gt_0_24 prec_lt_24 mode_NE false m 0 false d 0)) as C. cbv zeta in C.
  unfold cond_Zopp in C. unfold F2R in C. cbn [Fnum Fexp] in C. change (bpow radix2 0) with 1%R in C. rewrite !Rmult_1_r in C.
  rewrite Rlt_bool_true in C.
  - destruct C as (C1 & C2 & _). rewrite is_finite_SF2B, B2R_SF2B. split; assumption.
  - apply Rle_lt_trans with (bpow radix2 100); [|apply bpow_lt; lia]. apply abs_round_le_generic; [apply _|apply _| |exact H]. apply generic_format_bpow. unfold SpecFloat.fexp, SpecFloat.emin. lia.
Qed.

(** 2^40 * 3.4427, rounded down. *)
Definition lim40 : Z := 3785281744045.
Definition below (k : Z) (w : f64) : bool :=
  match w with B754_finite false m e _ => (e <=? -40) && (-1000 <=? e) && (k * Zpos m <=? lim40 * 2 ^ (-40 - e)) | _ => false end.
Lemma fast_table : forallb (fun kw : Z * f32 => below (fst kw) (f64_of_f32 (snd kw))) (combine kn wn) = true.
Proof. vm_compute. reflexivity. Qed.
Lemma wedge_table : forallb (fun w => below (2 ^ 31) (f64_of_f32 w)) (tl wn) = true.
Proof. vm_compute. reflexivity. Qed.
Lemma rn_R : fin rn /\ (0 <= R64 rn <= 4)%R.
Proof.
  unfold rn. destruct (of_Z_R 3442619855899 ltac:(lia)) as [F1 R1]. destruct (of_Z_R 1000000000000 ltac:(lia)) as [F2 R2].
  assert (Q : (0 <= R64 (f64_of_Z 3442619855899) / R64 (f64_of_Z 1000000000000) <= 4)%R) by (rewrite R1, R2; lra).
  destruct (fdiv_R _ _ F1 F2) as [F R]; [rewrite R2; lra| |].
  - rewrite Rabs_pos_eq by lra. apply Rle_trans with (bpow radix2 2); [change (bpow radix2 2) with 4%R; lra|apply bpow_le; lia].
  - split; [exact F|]. rewrite R. split; [rewrite <- rnd_0; apply rnd_le; lra|]. rewrite <- (rnd_Z 4) by lia. apply rnd_le; lra.
Qed.
Lemma inv_rn_R : fin inv_rn /\ (0 <= R64 inv_rn <= 1)%R.
Proof.
  unfold inv_rn. destruct (of_Z_R 3442619855899 ltac:(lia)) as [F1 R1]. destruct (of_Z_R 1000000000000 ltac:(lia)) as [F2 R2].
  assert (Q : (0 <= R64 (f64_of_Z 1000000000000) / R64 (f64_of_Z 3442619855899) <= 1)%R) by (rewrite R1, R2; lra).
  destruct (fdiv_R _ _ F2 F1) as [F R]; [rewrite R1; lra| |].
  - rewrite Rabs_pos_eq by lra. apply Rle_trans with (bpow radix2 0); [change (bpow radix2 0) with 1%R; lra|apply bpow_le; lia].
  - split; [exact F|]. rewrite R. split; [rewrite <- rnd_0; apply rnd_le; lra|]. rewrite <- (rnd_Z 1) by lia. apply rnd_le; lra.
Qed.

Lemma below_ok k w j : below k w = true -> 0 <= k <= 2 ^ 31 -> Z.abs j <= k -> fin (fmul (f64_of_Z j) w) /\ (Rabs (R64 (fmul (f64_of_Z j) w)) <= 34427 / 10000)%R.
Proof.
  intros B Hk Hj. unfold below in B. destruct w as [s|s| |s m e V] eqn:Ew; try discriminate. destruct s; [discriminate|]. rewrite !andb_true_iff, !Z.leb_le in B. destruct B as [[B1 B2] B3].
  assert (Hj53 : Z.abs j <= 2 ^ 53) by lia. destruct (of_Z_R j Hj53) as [Fj Rj].
  assert (Hw : R64 w = (IZR (Zpos m) * bpow radix2 e)%R) by (subst w; reflexivity).
  assert (Fw : fin w) by (subst w; reflexivity). rewrite <- Ew.
  assert (P : (Rabs (R64 (f64_of_Z j) * R64 w) <= IZR lim40 * bpow radix2 (-40))%R).
  { rewrite Rj, Hw, Rabs_mult, <- abs_IZR, Rabs_pos_eq; [|apply Rmult_le_pos; [apply IZR_le; lia|apply bpow_ge_0]]. rewrite <- Rmult_assoc, <- mult_IZR.
    apply Rle_trans with (IZR (lim40 * 2 ^ (-40 - e)) * bpow radix2 e)%R.
    - apply Rmult_le_compat_r; [apply bpow_ge_0|]. apply IZR_le. apply Z.le_trans with (k * Zpos m); [|exact B3]. apply Z.mul_le_mono_nonneg_r; lia.
    - rewrite mult_IZR, <- bpow_IZR by lia. rewrite Rmult_assoc, <- bpow_plus. replace (-40 - e + e) with (-40) by lia. apply Rle_refl. }
  assert (Q : (IZR lim40 * bpow radix2 (-40) <= 34427 / 10000)%R).
  { change (bpow radix2 (-40)) with (/ IZR (2 ^ 40))%R. change (2 ^ 40) with 1099511627776. unfold lim40. lra. }
  destruct (fmul_R (f64_of_Z j) w Fj Fw) as [F R].
  { eapply Rle_trans; [exact P|]. eapply Rle_trans; [exact Q|]. apply Rle_trans with (bpow radix2 2); [change (bpow radix2 2) with 4%R; lra|apply bpow_le; lia]. }
  split; [exact F|]. rewrite R. eapply Rle_trans; [|exact Q]. apply abs_round_le_generic; [apply _|apply _| |exact P]. apply format_dy; unfold lim40; lia.
Qed.

Lemma i32_range w : - 2 ^ 31 <= i32 w < 2 ^ 31.
Proof. unfold i32, wraps. pose proof (Z.mod_pos_bound (w + 2 ^ (32 - 1)) (2 ^ 32) ltac:(lia)). change (32 - 1) with 31 in *. lia. Qed.
Lemma abs_int32_ok j : - 2 ^ 31 <= j < 2 ^ 31 -> abs_int32 j = Z.abs j.
Proof.
  intros H. unfold abs_int32, u32, wrapu. destruct (Z.ltb_spec j 0) as [L|L].
  - destruct (Z.eq_dec j (- 2 ^ 31)) as [->|N]; [reflexivity|]. unfold i32, wraps. change (32 - 1) with 31. rewrite (Z.mod_small (- j + 2 ^ 31)) by lia. rewrite Z.mod_small by lia. lia.
  - rewrite Z.mod_small by lia. lia.
Qed.
Lemma land_mod j : Z.land j 127 = j mod 128.
Proof. change 127 with (Z.ones 7). rewrite Z.land_ones by lia. reflexivity. Qed.
Lemma wn_len : length wn = 128%nat. Proof. unfold wn. rewrite map_length. reflexivity. Qed.
Lemma fn_len : length fn = 128%nat. Proof. unfold fn. rewrite map_length. reflexivity. Qed.
Lemma kn_range : forallb (fun k => (0 <=? k) && (k <=? 2 ^ 31)) kn = true. Proof. vm_compute. reflexivity. Qed.

Lemma fsub_not_nan x y : fin x -> is_nan y = false -> is_nan (fsub x y) = false.
Proof.
  intros Hx Hy. destruct (is_finite y) eqn:Fy.
  - pose proof (Bminus_correct 53 1024 _ _ mode_NE x y Hx Fy) as C.
    destruct (Rlt_bool _ _) in C.
    + destruct C as (_ & C & _). unfold fsub. destruct (Bminus _ _ _); try discriminate; reflexivity.
    + destruct C as [C _]. destruct (is_nan (fsub x y)) eqn:E; [|reflexivity].
      apply SF_nan in E. unfold fsub in E. rewrite E in C. destruct (overflow_not_nan (Bsign x)); auto.
  - destruct y as [|s| |]; try discriminate. destruct x; try discriminate; reflexivity.
Qed.

Section C56.
Context {G : Type} (next : G -> Z * G) (float32 : G -> f32 * G) (log exp : f64 -> f64).
Notation run := (norm_float64 next float32 log exp).
Lemma fast_ok j wi ki : - 2 ^ 31 <= j < 2 ^ 31 -> nth_error wn (Z.to_nat (j mod 128)) = Some wi -> nth_error kn (Z.to_nat (j mod 128)) = Some ki -> Z.abs j < ki ->
  fin (fmul (f64_of_Z j) (f64_of_f32 wi)) /\ (Rabs (R64 (fmul (f64_of_Z j) (f64_of_f32 wi))) <= 34427 / 10000)%R.
Proof.
  intros Hj Hw Hk Ha. pose proof fast_table as T. rewrite forallb_forall in T.
  assert (I : In (ki, wi) (combine kn wn)).
  { clear - Hw Hk. revert Hw Hk. generalize (Z.to_nat (j mod 128)) as i. generalize wn as a. generalize kn as b. induction b as [|b bs IH]; intros [|a al] [|i]; cbn; try discriminate.
    - intros [= ->] [= ->]. auto.
    - intros H1 H2. right. eapply IH; eassumption. }
  specialize (T _ I). cbn [fst snd] in T. pose proof kn_range as K. rewrite forallb_forall in K. specialize (K ki (nth_error_In _ _ Hk)). rewrite andb_true_iff, !Z.leb_le in K.
  apply (below_ok ki); [exact T|lia|lia].
Qed.
Lemma wedge_ok j wi : - 2 ^ 31 <= j < 2 ^ 31 -> nth_error wn (Z.to_nat (j mod 128)) = Some wi -> j mod 128 <> 0 ->
  fin (fmul (f64_of_Z j) (f64_of_f32 wi)) /\ (Rabs (R64 (fmul (f64_of_Z j) (f64_of_f32 wi))) <= 34427 / 10000)%R.
Proof.
  intros Hj Hw Hn. pose proof wedge_table as T. rewrite forallb_forall in T. assert (I : In wi (tl wn)).
  { pose proof (Z.mod_pos_bound j 128 ltac:(lia)). destruct (Z.to_nat (j mod 128)) as [|i] eqn:Ei; [lia|]. destruct wn as [|w0 ws]; [discriminate|]. cbn [nth_error] in Hw. apply nth_error_In in Hw. exact Hw. }
  specialize (T _ I). apply (below_ok (2 ^ 31)); [exact T|lia|lia].
Qed.

(** No table access fails, whatever the generator, math.Log and math.Exp deliver. *)
Lemma strip_no_panic fuel sg : forall g, base_strip float32 log fuel sg g <> Panic.
Proof.
  induction fuel as [|fuel IH]; intros g; cbn [base_strip]; [discriminate|]. destruct (float32 g) as [u g1]. destruct (float32 g1) as [v g2]. destruct (fle _ _); [discriminate|apply IH].
Qed.
Theorem C56_no_panic fuel g : run fuel g <> Panic.
Proof.
  revert g. induction fuel as [|fuel IH]; intros g; cbn [norm_float64]; [discriminate|]. destruct (next g) as [w g1]. rewrite land_mod.
  pose proof (Z.mod_pos_bound (i32 w) 128 ltac:(lia)) as Hm. destruct (Z.ltb_spec (i32 w mod 128) 0); [lia|].
  destruct (nth_error wn _) as [wi|] eqn:Ew; [|apply nth_error_None in Ew; rewrite wn_len in Ew; lia].
  destruct (nth_error kn _) as [ki|] eqn:Ek; [|apply nth_error_None in Ek; change (length kn) with 128%nat in Ek; lia].
  destruct (nth_error fn (Z.to_nat (i32 w mod 128))) as [fi|] eqn:Ef; [|apply nth_error_None in Ef; rewrite fn_len in Ef; lia].
  cbv zeta. destruct (_ <? ki); [discriminate|]. destruct (_ =? 0) eqn:E0; [apply (strip_no_panic (S fuel))|]. apply Z.eqb_neq in E0.
  destruct (nth_error fn (Z.to_nat (i32 w mod 128 - 1))) as [fp|] eqn:Ep; [|apply nth_error_None in Ep; rewrite fn_len in Ep; lia].
  destruct (float32 g1) as [u g2]. destruct (f32lt _ _); [discriminate|apply IH].
Qed.

(** The fast path: one word, and the result is within 3.4427. *)
Theorem C56_fast fuel g w g1 : next g = (w, g1) -> Z.abs (i32 w) < nth (Z.to_nat (i32 w mod 128)) kn 0 ->
  exists x, run (S fuel) g = Done x g1 /\ fin x /\ (Rabs (R64 x) <= 34427 / 10000)%R.
Proof.
  intros En Ha. cbn [norm_float64]. rewrite En, land_mod. pose proof (Z.mod_pos_bound (i32 w) 128 ltac:(lia)) as Hm. destruct (Z.ltb_spec (i32 w mod 128) 0); [lia|].
  destruct (nth_error wn _) as [wi|] eqn:Ew; [|apply nth_error_None in Ew; rewrite wn_len in Ew; lia].
  destruct (nth_error kn _) as [ki|] eqn:Ek; [|apply nth_error_None in Ek; change (length kn) with 128%nat in Ek; lia].
  destruct (nth_error fn (Z.to_nat (i32 w mod 128))) as [fi|] eqn:Ef; [|apply nth_error_None in Ef; rewrite fn_len in Ef; lia].
  cbv zeta. rewrite (nth_error_nth _ _ _ Ek) in Ha. rewrite abs_int32_ok by apply i32_range. destruct (Z.ltb_spec (Z.abs (i32 w)) ki); [|lia].
  eexists. split; [reflexivity|]. apply (fast_ok (i32 w) wi ki); [apply i32_range|assumption..].
Qed.

(** Every result is within 3.4427, or was made by the base strip from a word with index 0. *)
Definition from_tail (x : f64) : Prop :=
  exists w g0, i32 w mod 128 = 0 /\ nth 0 kn 0 <= Z.abs (i32 w) /\
    let t := fmul (fopp (log (f64_of_f32 (fst (float32 g0))))) inv_rn in x = (if 0 <? i32 w then fadd rn t else fsub (fopp rn) t).
Lemma strip_tail fuel sg x g' : forall g, base_strip float32 log fuel sg g = Done x g' -> exists g0, let t := fmul (fopp (log (f64_of_f32 (fst (float32 g0))))) inv_rn in x = (if sg then fadd rn t else fsub (fopp rn) t).
Proof.
  induction fuel as [|fuel IH]; intros g; cbn [base_strip]; [discriminate|]. destruct (float32 g) as [u g1] eqn:Eu. destruct (float32 g1) as [v g2]. destruct (fle _ _); [|apply IH].
  intros H. exists g. rewrite Eu. cbv zeta. cbn [fst]. congruence.
Qed.
Theorem C56_bounded fuel g x g' : run fuel g = Done x g' -> (fin x /\ (Rabs (R64 x) <= 34427 / 10000)%R) \/ from_tail x.
Proof.
  revert g. induction fuel as [|fuel IH]; intros g; cbn [norm_float64]; [discriminate|]. destruct (next g) as [w g1]. rewrite land_mod.
  destruct (Z.ltb_spec (i32 w mod 128) 0); [discriminate|].
  destruct (nth_error wn _) as [wi|] eqn:Ew; [|discriminate].
  destruct (nth_error kn _) as [ki|] eqn:Ek; [|discriminate].
  destruct (nth_error fn (Z.to_nat (i32 w mod 128))) as [fi|] eqn:Ef; [|discriminate]. cbv zeta. pose proof (i32_range w) as Rw. rewrite abs_int32_ok by exact Rw.
  destruct (Z.ltb_spec (Z.abs (i32 w)) ki) as [L|L].
  { intros E. left. assert (x = fmul (f64_of_Z (i32 w)) (f64_of_f32 wi)) as -> by congruence. apply (fast_ok (i32 w) wi ki); assumption. }
  destruct (_ =? 0) eqn:E0.
  - apply Z.eqb_eq in E0. intros H'. right. apply (strip_tail (S fuel)) in H' as (u & Hu). exists w, u. split; [exact E0|]. split; [|exact Hu]. rewrite E0 in Ek. apply (nth_error_nth _ _ 0) in Ek. change (Z.to_nat 0) with 0%nat in Ek. rewrite Ek. exact L.
  - apply Z.eqb_neq in E0. destruct (nth_error fn (Z.to_nat (i32 w mod 128 - 1))) as [fp|] eqn:Ep; [|discriminate]. destruct (float32 g1) as [u g2]. destruct (f32lt _ _); [|apply IH].
    intros E. left. assert (x = fmul (f64_of_Z (i32 w)) (f64_of_f32 wi)) as -> by congruence. apply (wedge_ok (i32 w) wi); assumption.
Qed.
(** What Float32 returns, with and without 0 (the example below shows why that matters), and
    what is asked of math.Log: between 0 and 1 it is finite, not positive and (at the values of a
    float32, which are at least 2^-149) above -1000; at 0 it is not a NaN. *)
Definition unit_draws : Prop := forall g, fin32 (fst (float32 g)) /\ (0 <= R32 (fst (float32 g)) < 1)%R.
Definition positive_draws : Prop := forall g, fin32 (fst (float32 g)) /\ (0 < R32 (fst (float32 g)) < 1)%R.
Definition log_ok : Prop := forall u : f32, fin32 u -> (0 < R32 u < 1)%R -> fin (log (f64_of_f32 u)) /\ (-1000 <= R64 (log (f64_of_f32 u)) <= 0)%R.
Definition log_num : Prop := forall u : f32, fin32 u -> (0 <= R32 u < 1)%R -> is_nan (log (f64_of_f32 u)) = false.
(** Then the base strip too gives a finite number, at least rn from 0, on the side the word chose. *)
Theorem C56_tail x : positive_draws -> log_ok -> from_tail x -> fin x /\ (R64 rn <= Rabs (R64 x) <= 2048)%R.
Proof.
  intros Hd Hlog (w & g0 & _ & _ & ->). cbv zeta. destruct (Hd g0) as [Fu Ru]. destruct (Hlog _ Fu Ru) as [Fl Rl]. set (lg := log (f64_of_f32 (fst (float32 g0)))) in *. clearbody lg.
  assert (Fo : fin (fopp lg)) by (unfold fin, fopp; rewrite is_finite_Bopp; exact Fl). assert (Ro : R64 (fopp lg) = (- R64 lg)%R) by (unfold fopp; apply B2R_Bopp).
  destruct rn_R as [Fr Rr]. destruct inv_rn_R as [Fi Ri].
  assert (P : (0 <= R64 (fopp lg) * R64 inv_rn <= 1000)%R) by (rewrite Ro; split; [apply Rmult_le_pos; lra|]; apply Rle_trans with (1000 * 1)%R; [apply Rmult_le_compat; lra|lra]).
  assert (B : (2048 <= bpow radix2 1023)%R) by (apply Rle_trans with (bpow radix2 11); [change (bpow radix2 11) with 2048%R; lra|apply bpow_le; lia]).
  destruct (fmul_R (fopp lg) inv_rn Fo Fi) as [Ft Rt]; [rewrite Rabs_pos_eq; lra|]. set (t := fmul (fopp lg) inv_rn) in *. clearbody t.
  assert (T : (0 <= R64 t <= 1000)%R).
  { rewrite Rt. split; [rewrite <- rnd_0; apply rnd_le; lra|]. eapply Rle_trans; [apply rnd_le, P|]. rewrite (rnd_Z 1000) by lia. lra. }
  assert (S1 : (R64 rn <= rnd (R64 rn + R64 t) <= 2048)%R).
  { split; [rewrite <- (rnd_R64 rn) at 1; apply rnd_le; lra|]. apply Rle_trans with (rnd 2048); [apply rnd_le; lra|rewrite (rnd_Z 2048) by lia; lra]. }
  destruct (0 <? i32 w).
  - destruct (fadd_R rn t Fr Ft) as [F R]; [rewrite Rabs_pos_eq; lra|]. split; [exact F|]. rewrite R, Rabs_pos_eq; lra.
  - assert (Fn : fin (fopp rn)) by (unfold fin, fopp; rewrite is_finite_Bopp; exact Fr). assert (Rn : R64 (fopp rn) = (- R64 rn)%R) by (unfold fopp; apply B2R_Bopp).
    destruct (fsub_R (fopp rn) t Fn Ft) as [F R]; [replace (R64 (fopp rn) - R64 t)%R with (- (R64 rn + R64 t))%R by (rewrite Rn; ring); rewrite Rabs_Ropp, Rabs_pos_eq; lra|].
    split; [exact F|]. rewrite R. replace (R64 (fopp rn) - R64 t)%R with (- (R64 rn + R64 t))%R by (rewrite Rn; ring). rewrite rnd_opp, Rabs_Ropp, Rabs_pos_eq; lra.
Qed.
Theorem C56_finite fuel g x g' : positive_draws -> log_ok -> run fuel g = Done x g' -> fin x /\ (Rabs (R64 x) <= 2048)%R.
Proof. intros Hd Hl H. destruct (C56_bounded _ _ _ _ H) as [[F B]|T]; [split; [exact F|lra]|]. destruct (C56_tail _ Hd Hl T) as [F B]. split; [exact F|lra]. Qed.
(** Whatever Float32 returns, 0 included, a result is not a NaN. *)
Theorem C56_num fuel g x g' : unit_draws -> log_num -> run fuel g = Done x g' -> is_nan x = false.
Proof.
  intros Hd Hl H. destruct (C56_bounded _ _ _ _ H) as [[F _]|(w & g0 & _ & _ & ->)].
  - unfold fin in F. destruct x; try discriminate F; reflexivity.
  - cbv zeta. destruct (Hd g0) as [Fu Ru]. specialize (Hl _ Fu Ru). set (lg := log (f64_of_f32 (fst (float32 g0)))) in *. clearbody lg.
    assert (N : is_nan (fmul (fopp lg) inv_rn) = false).
    { destruct inv_rn_R as [Fi _]. destruct lg as [sl|sl| |sl ml el Bl]; try discriminate Hl.
      - apply fmul_not_nan; [reflexivity|exact Fi].
      - vm_compute. destruct sl; reflexivity.
      - apply fmul_not_nan; [reflexivity|exact Fi]. }
    destruct rn_R as [Fr _]. destruct (0 <? i32 w); [apply fadd_not_nan; assumption|].
    apply fsub_not_nan; [|exact N]. unfold fin, fopp. rewrite is_finite_Bopp. exact Fr.
Qed.
End C56.
Print Assumptions C56_no_panic.
Print Assumptions C56_fast.
Print Assumptions C56_bounded.
Print Assumptions C56_tail.
Print Assumptions C56_finite.
Print Assumptions C56_num.

(** Words on the fast path, in a wedge (accepted because exp is 1 here), and in the tail
    (log(1/2) = -0.69..); millionths. *)
Definition ex_next (g : list Z) : Z * list Z := (hd 0 g, tl g).
Definition ex_f32 (g : list Z) : f32 * list Z := (f32_dy (hd 0 g) (-24), tl g).
Definition ex_log (x : f64) : f64 := if feq x fhalf then f64_dy (-6243314768165359) (-53) else f64_of_Z (-90).
Definition ex_norm (g : list Z) : option (Z * nat) :=
  match norm_float64 ex_next ex_f32 ex_log (fun _ => f1) 5 g with Done x g' => Some (go_int (fmul x (f64_of_Z 1000000)), length g') | _ => None end.
Example C56_fast_case : ex_norm [1000000005] = Some (242449, 0%nat) /\ ex_norm [3294967291] = Some (-1347784, 0%nat) /\ i32 3294967291 = -1000000005.
Proof. vm_compute. auto. Qed.
Example C56_wedge_case : ex_norm [2147483647; 0] = Some (3442619, 0%nat).
Proof. vm_compute. reflexivity. Qed.
Example C56_tail_case : ex_norm [2147483520; 8388608; 0; 77] = Some (3643962, 1%nat) /\ ex_norm [2147483648; 8388608; 0; 77] = Some (-3643962, 1%nat).
Proof. vm_compute. auto. Qed.
(** A Float32 of 0 twice gives an infinite result (math.Log(0) is -Inf). *)
Definition inf_log (x : f64) : f64 := if feq x f0 then B754_infinity true else f64_of_Z (-1).
Theorem C56_finite_refuted : match norm_float64 ex_next ex_f32 inf_log (fun _ => f1) 5 [2147483520; 0; 0] with Done x _ => is_inf false x | _ => false end = true.
Proof. vm_compute. reflexivity. Qed.
Print Assumptions C56_finite_refuted.
