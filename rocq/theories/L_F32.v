(** Real-number semantics of the float32 operators of GoNum (used by proofs only). *)
From Coq Require Import ZArith Reals Bool Lia Lra Psatz.
From Flocq Require Import Core IEEE754.BinarySingleNaN Relative.
From Verif Require Import GoNum FloatLemmas.

Open Scope R_scope.

Definition rnd32 (r : R) : R := round radix2 (SpecFloat.fexp 24 128) ZnearestE r.
Definition fin32 (x : f32) : Prop := is_finite x = true.
Notation R32 := (@B2R 24 128).

#[global] Instance vexp24 : Valid_exp (SpecFloat.fexp 24 128) := fexp_correct 24 128 _.
#[global] Instance mexp24 : Monotone_exp (SpecFloat.fexp 24 128) := fexp_monotone 24 128.

Lemma rnd32_le x y : x <= y -> rnd32 x <= rnd32 y.
Proof. intros; apply round_le; auto with typeclass_instances. Qed.
Lemma rnd32_id x : generic_format radix2 (SpecFloat.fexp 24 128) x -> rnd32 x = x.
Proof. intros; apply round_generic; auto with typeclass_instances. Qed.
Lemma format32_dy m e : (Z.abs m <= 2 ^ 24)%Z -> (-149 <= e)%Z ->
  generic_format radix2 (SpecFloat.fexp 24 128) (IZR m * bpow radix2 e).
Proof.
  intros Hm He.
  destruct (Z.eq_dec (Z.abs m) (2 ^ 24)) as [E|E].
  - assert (Hc : (m = 2 ^ 24 \/ m = - 2 ^ 24)%Z) by lia.
    assert (G : generic_format radix2 (SpecFloat.fexp 24 128) (bpow radix2 (24 + e))).
    { apply generic_format_bpow. unfold SpecFloat.fexp, SpecFloat.emin. lia. }
    rewrite bpow_plus in G.
    destruct Hc as [-> | ->].
    + exact G.
    + apply generic_format_opp in G.
      replace (- (bpow radix2 24 * bpow radix2 e)) with (IZR (- 2 ^ 24) * bpow radix2 e) in G; [exact G|].
      change (bpow radix2 24) with (IZR (2 ^ 24)). rewrite opp_IZR. ring.
  - change (generic_format radix2 (FLT_exp (-149) 24) (IZR m * bpow radix2 e)).
    apply generic_format_FLT. exists (Float radix2 m e); try reflexivity; cbn [Fnum Fexp].
    + change (Zpower radix2 24) with (2^24)%Z. lia.
    + exact He.
Qed.
Lemma rnd32_dy m e : (Z.abs m <= 2 ^ 24)%Z -> (-149 <= e)%Z -> rnd32 (IZR m * bpow radix2 e) = IZR m * bpow radix2 e.
Proof. intros; apply rnd32_id, format32_dy; assumption. Qed.
Lemma rnd32_Z z : (Z.abs z <= 2 ^ 24)%Z -> rnd32 (IZR z) = IZR z.
Proof. intros H. pose proof (rnd32_dy z 0 H ltac:(lia)) as E. cbn [bpow] in E. rewrite Rmult_1_r in E. exact E. Qed.
Lemma rnd32_bpow e : (-149 <= e)%Z -> rnd32 (bpow radix2 e) = bpow radix2 e.
Proof. intros H. pose proof (rnd32_dy 1 e ltac:(lia) H) as E. rewrite Rmult_1_l in E. exact E. Qed.
Lemma rnd32_opp x : rnd32 (- x) = - rnd32 x.
Proof. unfold rnd32. rewrite round_NE_opp. reflexivity. Qed.
Lemma rnd32_0 : rnd32 0 = 0.
Proof. apply (rnd32_Z 0). lia. Qed.
Lemma rnd32_abs_le x e : (-149 <= e)%Z -> Rabs x <= bpow radix2 e -> Rabs (rnd32 x) <= bpow radix2 e.
Proof.
  intros He H. apply Rabs_le. apply Rabs_le_inv in H. destruct H as [H1 H2].
  apply rnd32_le in H1, H2. rewrite rnd32_opp in H1. rewrite rnd32_bpow in H1, H2 by exact He. split; assumption.
Qed.
(** Error of rounding a value of magnitude at most 2^e. *)
Lemma rnd32_err x e : (-120 <= e)%Z -> Rabs x <= bpow radix2 e ->
  Rabs (rnd32 x - x) <= bpow radix2 (e - 25).
Proof.
  intros He H. destruct (Req_dec (Rabs x) (bpow radix2 e)) as [E|E].
  - assert (rnd32 x = x) as ->.
    { unfold Rabs in E. destruct (Rcase_abs x).
      - replace x with (- bpow radix2 e) by lra. rewrite rnd32_opp, rnd32_bpow by lia. reflexivity.
      - replace x with (bpow radix2 e) by lra. apply rnd32_bpow; lia. }
    rewrite Rminus_diag_eq by reflexivity. rewrite Rabs_R0. apply bpow_ge_0.
  - destruct (Req_dec x 0) as [->|Hx].
    { rewrite rnd32_0, Rminus_0_r, Rabs_R0. apply bpow_ge_0. }
    eapply Rle_trans. apply error_le_half_ulp; auto with typeclass_instances.
    rewrite ulp_neq_0 by exact Hx. unfold cexp.
    change (/2) with (bpow radix2 (-1)). rewrite <- bpow_plus. apply bpow_le.
    assert (mag radix2 x <= e)%Z by (apply mag_le_bpow; [exact Hx|lra]).
    unfold SpecFloat.fexp, SpecFloat.emin. lia.
Qed.

Lemma lt_128 x e : (-149 <= e < 128)%Z -> Rabs x <= bpow radix2 e ->
  Rlt_bool (Rabs (rnd32 x)) (bpow radix2 128) = true.
Proof.
  intros He H. apply Rlt_bool_true. eapply Rle_lt_trans. apply (rnd32_abs_le _ e); [lia|exact H].
  apply bpow_lt; lia.
Qed.
Lemma f32add_R x y : fin32 x -> fin32 y -> Rabs (R32 x + R32 y) <= bpow radix2 127 ->
  fin32 (f32add x y) /\ R32 (f32add x y) = rnd32 (R32 x + R32 y).
Proof.
  intros Hx Hy Hb. pose proof (Bplus_correct 24 128 _ _ mode_NE x y Hx Hy) as C.
  cbn [round_mode] in C. fold (rnd32 (R32 x + R32 y)) in C.
  rewrite (lt_128 _ 127) in C by (lia || exact Hb). destruct C as (C1 & C2 & _). split; assumption.
Qed.
Lemma f32sub_R x y : fin32 x -> fin32 y -> Rabs (R32 x - R32 y) <= bpow radix2 127 ->
  fin32 (f32sub x y) /\ R32 (f32sub x y) = rnd32 (R32 x - R32 y).
Proof.
  intros Hx Hy Hb. pose proof (Bminus_correct 24 128 _ _ mode_NE x y Hx Hy) as C.
  cbn [round_mode] in C. fold (rnd32 (R32 x - R32 y)) in C.
  rewrite (lt_128 _ 127) in C by (lia || exact Hb). destruct C as (C1 & C2 & _). split; assumption.
Qed.
Lemma f32_dy_R m e : Rabs (IZR m * bpow radix2 e) <= bpow radix2 127 ->
  fin32 (f32_dy m e) /\ R32 (f32_dy m e) = rnd32 (IZR m * bpow radix2 e).
Proof.
  intros Hb. pose proof (binary_normalize_correct 24 128 _ _ mode_NE m e false) as C.
  cbn zeta in C. cbn [round_mode] in C. unfold F2R in C. cbn [Fnum Fexp] in C.
  fold (rnd32 (IZR m * bpow radix2 e)) in C.
  rewrite (lt_128 _ 127) in C by (lia || exact Hb). destruct C as (C1 & C2 & _). split; assumption.
Qed.
Lemma f32_of_f64_R x : fin x -> Rabs (R64 x) <= bpow radix2 127 -> fin32 (f32_of_f64 x) /\ R32 (f32_of_f64 x) = rnd32 (R64 x).
Proof.
  destruct x as [s|s| |s m e Hm]; try discriminate; intros _ Hb; cbn [f32_of_f64].
  - split; [reflexivity|]. cbn. now rewrite rnd32_0.
  - pose proof (binary_normalize_correct 24 128 _ _ mode_NE (cond_Zopp s (Zpos m)) e s) as C.
    cbn zeta in C. cbn [round_mode] in C. fold (rnd32 (F2R (Float radix2 (cond_Zopp s (Zpos m)) e))) in C.
    rewrite (lt_128 _ 127) in C by (lia || exact Hb). destruct C as (C1 & C2 & _). split; assumption.
Qed.
Lemma f64_of_f32_R x : fin32 x -> fin (f64_of_f32 x) /\ R64 (f64_of_f32 x) = R32 x.
Proof.
  destruct x as [s|s| |s m e Hm]; try discriminate; intros _; cbn [f64_of_f32].
  - split; reflexivity.
  - assert (G : generic_format radix2 (SpecFloat.fexp 24 128) (R32 (B754_finite s m e Hm))) by apply generic_format_B2R.
    assert (B : Rabs (R32 (B754_finite s m e Hm)) < bpow radix2 128) by apply abs_B2R_lt_emax.
    set (r := F2R (Float radix2 (cond_Zopp s (Zpos m)) e)). change (R32 (B754_finite s m e Hm)) with r in *.
    assert (E : rnd r = r).
    { apply rnd_id. refine (generic_inclusion_le radix2 (SpecFloat.fexp 24 128) (SpecFloat.fexp 53 1024) 128 _ r _ G).
      - intros ex _. unfold SpecFloat.fexp, SpecFloat.emin. lia.
      - apply Rlt_le, B. }
    pose proof (binary_normalize_correct 53 1024 _ _ mode_NE (cond_Zopp s (Zpos m)) e s) as C.
    cbn zeta in C. cbn [round_mode] in C. fold r in C. fold (rnd r) in C.
    rewrite (lt_1024 _ 1023) in C; [|lia|]. 
    + destruct C as (C1 & C2 & _). split; [exact C2|]. rewrite C1. exact E.
    + apply Rlt_le. eapply Rlt_le_trans; [exact B|apply bpow_le; lia].
Qed.
Lemma fsqrt_R x : fin x -> 0 <= R64 x -> fin (fsqrt x) /\ R64 (fsqrt x) = rnd (sqrt (R64 x)).
Proof.
  intros Hx H. destruct (Bsqrt_correct 53 1024 _ _ mode_NE x) as (A & B & _). split; [|exact A].
  unfold fin in *. unfold fsqrt. rewrite B. destruct x as [s|s| |s m e Hm]; try reflexivity; try discriminate.
  destruct s; [|reflexivity]. exfalso. cbn in H. unfold F2R in H. cbn [Fnum Fexp] in H. pose proof (bpow_gt_0 radix2 e).
  assert (IZR (Zneg m) < 0) by (apply IZR_lt; lia). nra.
Qed.
