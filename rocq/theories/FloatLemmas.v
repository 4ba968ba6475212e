(** Real-number semantics of the float64 operators of GoNum (used by proofs only). *)
From Coq Require Import ZArith Reals Bool Lia Lra Psatz.
From Flocq Require Import Core IEEE754.BinarySingleNaN Relative.
From Verif Require Import GoNum.

Open Scope R_scope.

Definition rnd (r : R) : R := round radix2 (SpecFloat.fexp 53 1024) ZnearestE r.
Definition fin (x : f64) : Prop := is_finite x = true.
Notation R64 := (@B2R 53 1024).

#[global] Instance vexp53 : Valid_exp (SpecFloat.fexp 53 1024) := fexp_correct 53 1024 _.
#[global] Instance mexp53 : Monotone_exp (SpecFloat.fexp 53 1024) := fexp_monotone 53 1024.

Lemma rnd_le x y : x <= y -> rnd x <= rnd y.
Proof. intros; apply round_le; auto with typeclass_instances. Qed.

Lemma fexp_FLT e : SpecFloat.fexp 53 1024 e = FLT_exp (-1074) 53 e.
Proof. reflexivity. Qed.

Lemma rnd_id x : generic_format radix2 (SpecFloat.fexp 53 1024) x -> rnd x = x.
Proof. intros; apply round_generic; auto with typeclass_instances. Qed.

Lemma rnd_R64 x : rnd (R64 x) = R64 x.
Proof. apply rnd_id, generic_format_B2R. Qed.

Lemma format_dy m e : (Z.abs m <= 2 ^ 53)%Z -> (-1074 <= e)%Z ->
  generic_format radix2 (SpecFloat.fexp 53 1024) (IZR m * bpow radix2 e).
Proof.
  intros Hm He.
  destruct (Z.eq_dec (Z.abs m) (2 ^ 53)) as [E|E].
  - assert (Hc : (m = 2 ^ 53 \/ m = - 2 ^ 53)%Z) by lia.
    assert (G : generic_format radix2 (SpecFloat.fexp 53 1024) (bpow radix2 (53 + e))).
    { apply generic_format_bpow. unfold SpecFloat.fexp, SpecFloat.emin. lia. }
    rewrite bpow_plus in G.
    destruct Hc as [-> | ->].
    + exact G.
    + apply generic_format_opp in G.
      replace (- (bpow radix2 53 * bpow radix2 e)) with (IZR (- 2 ^ 53) * bpow radix2 e) in G; [exact G|].
      change (bpow radix2 53) with (IZR (2 ^ 53)). rewrite opp_IZR. ring.
  - change (generic_format radix2 (FLT_exp (-1074) 53) (IZR m * bpow radix2 e)).
    apply generic_format_FLT. exists (Float radix2 m e); try reflexivity; cbn [Fnum Fexp].
    + change (Zpower radix2 53) with (2^53)%Z. lia.
    + exact He.
Qed.

Lemma rnd_dy m e : (Z.abs m <= 2 ^ 53)%Z -> (-1074 <= e)%Z -> rnd (IZR m * bpow radix2 e) = IZR m * bpow radix2 e.
Proof. intros; apply rnd_id, format_dy; assumption. Qed.

Lemma rnd_Z z : (Z.abs z <= 2 ^ 53)%Z -> rnd (IZR z) = IZR z.
Proof. intros H. pose proof (rnd_dy z 0 H ltac:(lia)) as E. cbn [bpow] in E. rewrite Rmult_1_r in E. exact E. Qed.

Lemma rnd_bpow e : (-1074 <= e)%Z -> rnd (bpow radix2 e) = bpow radix2 e.
Proof. intros H. pose proof (rnd_dy 1 e ltac:(lia) H) as E. rewrite Rmult_1_l in E. exact E. Qed.

Lemma rnd_opp x : rnd (- x) = - rnd x.
Proof. unfold rnd. rewrite round_NE_opp. reflexivity. Qed.

Lemma rnd_0 : rnd 0 = 0.
Proof. apply (rnd_Z 0). lia. Qed.

Lemma rnd_abs_le x e : (-1074 <= e)%Z -> Rabs x <= bpow radix2 e -> Rabs (rnd x) <= bpow radix2 e.
Proof.
  intros He H. apply Rabs_le. apply Rabs_le_inv in H. destruct H as [H1 H2].
  apply rnd_le in H1, H2. rewrite rnd_opp in H1. rewrite rnd_bpow in H1, H2 by exact He. split; assumption.
Qed.

Lemma rnd_abs_le_Z x z : (Z.abs z <= 2 ^ 53)%Z -> Rabs x <= IZR z -> Rabs (rnd x) <= IZR z.
Proof.
  intros He H. apply Rabs_le. apply Rabs_le_inv in H. destruct H as [H1 H2].
  apply rnd_le in H1, H2. rewrite rnd_opp in H1. rewrite rnd_Z in H1, H2 by exact He. split; assumption.
Qed.

(** Error of rounding a value of magnitude at most 2^e. *)
Lemma rnd_err x e : (-1020 <= e)%Z -> Rabs x <= bpow radix2 e ->
  Rabs (rnd x - x) <= bpow radix2 (e - 54).
Proof.
  intros He H. destruct (Req_dec (Rabs x) (bpow radix2 e)) as [E|E].
  - assert (rnd x = x) as ->.
    { unfold Rabs in E. destruct (Rcase_abs x).
      - replace x with (- bpow radix2 e) by lra. rewrite rnd_opp, rnd_bpow by lia. reflexivity.
      - replace x with (bpow radix2 e) by lra. apply rnd_bpow; lia. }
    rewrite Rminus_diag_eq by reflexivity. rewrite Rabs_R0. apply bpow_ge_0.
  - destruct (Req_dec x 0) as [->|Hx].
    { rewrite rnd_0, Rminus_0_r, Rabs_R0. apply bpow_ge_0. }
    eapply Rle_trans. apply error_le_half_ulp; auto with typeclass_instances.
    rewrite ulp_neq_0 by exact Hx. unfold cexp.
    change (/2) with (bpow radix2 (-1)). rewrite <- bpow_plus. apply bpow_le.
    assert (mag radix2 x <= e)%Z by (apply mag_le_bpow; [exact Hx|lra]).
    unfold SpecFloat.fexp, SpecFloat.emin. lia.
Qed.

(** Relative error (with the subnormal term). *)
Lemma rnd_rel x : Rabs (rnd x - x) <= bpow radix2 (-53) * Rabs x + bpow radix2 (-1075).
Proof.
  destruct (error_N_FLT radix2 (-1074) 53 ltac:(reflexivity) (fun z => negb (Z.even z)) x)
    as [eps [eta [H1 [H2 [_ E]]]]].
  change (round radix2 (FLT_exp (-1074) 53) (Znearest (fun z => negb (Z.even z))) x) with (rnd x) in E.
  rewrite E. replace (x * (1 + eps) + eta - x) with (x * eps + eta) by ring.
  eapply Rle_trans. apply Rabs_triang. rewrite Rabs_mult.
  apply Rplus_le_compat.
  - rewrite Rmult_comm. apply Rmult_le_compat_r. apply Rabs_pos.
    eapply Rle_trans. apply H1. change (/2) with (bpow radix2 (-1)). rewrite <- bpow_plus. apply bpow_le. lia.
  - eapply Rle_trans. apply H2. change (/2) with (bpow radix2 (-1)). rewrite <- bpow_plus. apply bpow_le. lia.
Qed.

(* ------------------------------------------------------------------ *)
(** * Operators *)

Lemma lt_1024 x e : (-1074 <= e < 1024)%Z -> Rabs x <= bpow radix2 e ->
  Rlt_bool (Rabs (rnd x)) (bpow radix2 1024) = true.
Proof.
  intros He H. apply Rlt_bool_true. eapply Rle_lt_trans. apply (rnd_abs_le _ e); [lia|exact H].
  apply bpow_lt; lia.
Qed.

Lemma fadd_R x y : fin x -> fin y -> Rabs (R64 x + R64 y) <= bpow radix2 1023 ->
  fin (fadd x y) /\ R64 (fadd x y) = rnd (R64 x + R64 y).
Proof.
  intros Hx Hy Hb. pose proof (Bplus_correct 53 1024 _ _ mode_NE x y Hx Hy) as C.
  cbn [round_mode] in C. fold (rnd (R64 x + R64 y)) in C.
  rewrite (lt_1024 _ 1023) in C by (lia || exact Hb). destruct C as (C1 & C2 & _). split; assumption.
Qed.

Lemma fsub_R x y : fin x -> fin y -> Rabs (R64 x - R64 y) <= bpow radix2 1023 ->
  fin (fsub x y) /\ R64 (fsub x y) = rnd (R64 x - R64 y).
Proof.
  intros Hx Hy Hb. pose proof (Bminus_correct 53 1024 _ _ mode_NE x y Hx Hy) as C.
  cbn [round_mode] in C. fold (rnd (R64 x - R64 y)) in C.
  rewrite (lt_1024 _ 1023) in C by (lia || exact Hb). destruct C as (C1 & C2 & _). split; assumption.
Qed.

Lemma fmul_R x y : fin x -> fin y -> Rabs (R64 x * R64 y) <= bpow radix2 1023 ->
  fin (fmul x y) /\ R64 (fmul x y) = rnd (R64 x * R64 y).
Proof.
  intros Hx Hy Hb. pose proof (Bmult_correct 53 1024 _ _ mode_NE x y) as C.
  cbn [round_mode] in C. fold (rnd (R64 x * R64 y)) in C.
  rewrite (lt_1024 _ 1023) in C by (lia || exact Hb). destruct C as (C1 & C2 & _).
  unfold fin in *. rewrite Hx, Hy in C2. split; assumption.
Qed.

Lemma fdiv_R x y : fin x -> fin y -> R64 y <> 0 -> Rabs (R64 x / R64 y) <= bpow radix2 1023 ->
  fin (fdiv x y) /\ R64 (fdiv x y) = rnd (R64 x / R64 y).
Proof.
  intros Hx Hy Hn Hb. pose proof (Bdiv_correct 53 1024 _ _ mode_NE x y Hn) as C.
  cbn [round_mode] in C. fold (rnd (R64 x / R64 y)) in C.
  rewrite (lt_1024 _ 1023) in C by (lia || exact Hb). destruct C as (C1 & C2 & _).
  unfold fin in *. rewrite Hx in C2. split; assumption.
Qed.

Lemma f64_dy_R m e : Rabs (IZR m * bpow radix2 e) <= bpow radix2 1023 ->
  fin (f64_dy m e) /\ R64 (f64_dy m e) = rnd (IZR m * bpow radix2 e).
Proof.
  intros Hb. pose proof (binary_normalize_correct 53 1024 _ _ mode_NE m e false) as C.
  cbn zeta in C. cbn [round_mode] in C. unfold F2R in C. cbn [Fnum Fexp] in C.
  fold (rnd (IZR m * bpow radix2 e)) in C.
  rewrite (lt_1024 _ 1023) in C by (lia || exact Hb). destruct C as (C1 & C2 & _). split; assumption.
Qed.

Lemma bpow_IZR e : (0 <= e)%Z -> bpow radix2 e = IZR (2 ^ e).
Proof. intros. rewrite <- (IZR_Zpower radix2) by assumption. reflexivity. Qed.

Lemma of_Z_R z : (Z.abs z <= 2 ^ 53)%Z -> fin (f64_of_Z z) /\ R64 (f64_of_Z z) = IZR z.
Proof.
  intros H. destruct (f64_dy_R z 0) as [A B].
  - change (bpow radix2 0) with 1. rewrite Rmult_1_r, <- abs_IZR. eapply Rle_trans with (bpow radix2 53).
    + rewrite bpow_IZR by lia. apply IZR_le, H.
    + apply bpow_le; lia.
  - split; [exact A|]. etransitivity; [exact B|]. change (bpow radix2 0) with 1. rewrite Rmult_1_r. apply rnd_Z, H.
Qed.

Lemma of_Z_fin z : (Z.abs z <= 2 ^ 53)%Z -> fin (f64_of_Z z).
Proof. apply of_Z_R. Qed.
Lemma of_Z_val z : (Z.abs z <= 2 ^ 53)%Z -> R64 (f64_of_Z z) = IZR z.
Proof. apply of_Z_R. Qed.

Lemma flt_R x y : fin x -> fin y -> flt x y = Rlt_bool (R64 x) (R64 y).
Proof. intros; apply Bltb_correct; assumption. Qed.
Lemma fle_R x y : fin x -> fin y -> fle x y = Rle_bool (R64 x) (R64 y).
Proof. intros; apply Bleb_correct; assumption. Qed.
Lemma feq_R x y : fin x -> fin y -> feq x y = Req_bool (R64 x) (R64 y).
Proof. intros; apply Beqb_correct; assumption. Qed.

Lemma round_FIX0 md r : round radix2 (FIX_exp 0) (round_mode md) r = IZR (round_mode md r).
Proof.
  unfold round, scaled_mantissa, cexp, FIX_exp, F2R. cbn [Fnum Fexp Z.opp bpow].
  rewrite !Rmult_1_r. reflexivity.
Qed.

Lemma Btrunc_val (x : f64) : Btrunc x = Ztrunc (R64 x).
Proof.
  apply eq_IZR. rewrite Btrunc_correct by reflexivity.
  unfold round, scaled_mantissa, cexp, FIX_exp, F2R. cbn [Fnum Fexp Z.opp bpow].
  rewrite !Rmult_1_r. reflexivity.
Qed.

Lemma go_int_R x : fin x -> (- 2 ^ 63 <= Ztrunc (R64 x) < 2 ^ 63)%Z -> go_int x = Ztrunc (R64 x).
Proof.
  intros Hx H. unfold go_int. unfold fin in Hx. rewrite Hx. cbv zeta. rewrite Btrunc_val.
  destruct (Z.leb_spec (- 2 ^ 63) (Ztrunc (R64 x))); [|lia].
  destruct (Z.ltb_spec (Ztrunc (R64 x)) (2 ^ 63)); [|lia]. reflexivity.
Qed.

Lemma Ztrunc_bound r z : Rabs r <= IZR z -> (Z.abs (Ztrunc r) <= z)%Z.
Proof.
  intros H. apply Rabs_le_inv in H. destruct H as [H1 H2].
  apply Ztrunc_le in H1, H2. rewrite Ztrunc_IZR in H2. rewrite <- opp_IZR, Ztrunc_IZR in H1. lia.
Qed.

Lemma go_int_small x z : fin x -> Rabs (R64 x) <= IZR z -> (z < 2 ^ 63)%Z -> go_int x = Ztrunc (R64 x).
Proof. intros Hx H Hz. apply go_int_R; [exact Hx|]. apply Ztrunc_bound in H. lia. Qed.

Lemma fround_R x : fin x -> fin (fround x) /\ R64 (fround x) = IZR (ZnearestA (R64 x)).
Proof.
  intros H. destruct (Bnearbyint_correct 53 1024 _ mode_NA x) as (A & B & _).
  split.
  - unfold fin, fround. rewrite B. exact H.
  - unfold fround. rewrite A, round_FIX0. reflexivity.
Qed.
Lemma ffloor_R x : fin x -> fin (ffloor x) /\ R64 (ffloor x) = IZR (Zfloor (R64 x)).
Proof.
  intros H. destruct (Bnearbyint_correct 53 1024 _ mode_DN x) as (A & B & _).
  split.
  - unfold fin, ffloor. rewrite B. exact H.
  - unfold ffloor. rewrite A, round_FIX0. reflexivity.
Qed.
Lemma fceil_R x : fin x -> fin (fceil x) /\ R64 (fceil x) = IZR (Zceil (R64 x)).
Proof.
  intros H. destruct (Bnearbyint_correct 53 1024 _ mode_UP x) as (A & B & _).
  split.
  - unfold fin, fceil. rewrite B. exact H.
  - unfold fceil. rewrite A, round_FIX0. reflexivity.
Qed.

Lemma f0_fin : fin f0. Proof. reflexivity. Qed.
Lemma f0_R : R64 f0 = 0. Proof. apply (of_Z_val 0). lia. Qed.
Lemma f1_fin : fin f1. Proof. reflexivity. Qed.
Lemma f1_R : R64 f1 = 1. Proof. apply (of_Z_val 1). lia. Qed.
Lemma fhalf_fin : fin fhalf. Proof. reflexivity. Qed.
Lemma fhalf_R : R64 fhalf = / 2.
Proof.
  destruct (f64_dy_R 1 (-1)) as [_ B].
  - rewrite Rmult_1_l, Rabs_pos_eq by apply bpow_ge_0. apply bpow_le; lia.
  - etransitivity; [exact B|]. rewrite rnd_dy by lia. rewrite Rmult_1_l. reflexivity.
Qed.

(** Injectivity up to the sign of zero. *)
Lemma R64_inj_pos x y : fin x -> fin y -> R64 x = R64 y -> R64 x <> 0 -> x = y.
Proof.
  intros Hx Hy E Hn. apply B2R_inj; [| |exact E].
  - destruct x; try reflexivity; try discriminate. now elim Hn.
  - destruct y; try reflexivity; try discriminate. rewrite E in Hn. now elim Hn.
Qed.
