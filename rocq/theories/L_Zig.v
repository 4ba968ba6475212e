(** Bounds of exp by integers, and the tables of random.go checked with them. *)
From Coq Require Import ZArith Reals List Bool Lia Lra Psatz.
From Flocq Require Import Core IEEE754.BinarySingleNaN.
From Verif Require Import GoNum FloatLemmas L_F32 M_Random S_Zig P_Random.
Import ListNotations.
Local Open Scope R_scope.

Definition sc : Z := 2 ^ 120.
Definition toR (a : Z) : R := IZR a / IZR sc.
Lemma sc_pos : 0 < IZR sc. Proof. apply (IZR_lt 0). reflexivity. Qed.
Lemma toR_le a b : (a <= b)%Z -> toR a <= toR b.
Proof. intros H. unfold toR. apply Rmult_le_compat_r; [left; apply Rinv_0_lt_compat, sc_pos|apply IZR_le, H]. Qed.
Lemma toR_le_inv a b : toR a <= toR b -> (a <= b)%Z.
Proof. intros H. apply le_IZR. unfold toR, Rdiv in H. apply Rmult_le_reg_r in H; [exact H|apply Rinv_0_lt_compat, sc_pos]. Qed.
Lemma toR_nonneg a : (0 <= a)%Z -> 0 <= toR a.
Proof. intros H. replace 0 with (toR 0) by (unfold toR; lra). apply toR_le, H. Qed.
(** Products, rounded down and up. *)
Definition mdn (a b : Z) : Z := Z.shiftr (a * b) 120.
Definition mup (a b : Z) : Z := (- Z.shiftr (- (a * b)) 120)%Z.
Lemma mdn_eq a b : mdn a b = (a * b / sc)%Z.
Proof. unfold mdn. rewrite Z.shiftr_div_pow2 by lia. reflexivity. Qed.
Lemma mup_eq a b : mup a b = (- (- (a * b) / sc))%Z.
Proof. unfold mup. rewrite Z.shiftr_div_pow2 by lia. reflexivity. Qed.
Lemma div_dn a : IZR (a / sc) <= IZR a / IZR sc.
Proof.
  apply Rmult_le_reg_r with (IZR sc); [apply sc_pos|]. unfold Rdiv. rewrite Rmult_assoc, Rinv_l, Rmult_1_r by (pose proof sc_pos; lra). rewrite <- mult_IZR. apply IZR_le.
  pose proof (Z.mul_div_le a sc ltac:(reflexivity)). lia.
Qed.
Lemma mdn_R a b : toR (mdn a b) <= toR a * toR b.
Proof.
  rewrite mdn_eq. unfold toR at 1. apply Rle_trans with (IZR (a * b) / IZR sc / IZR sc).
  - apply Rmult_le_compat_r; [left; apply Rinv_0_lt_compat, sc_pos|apply div_dn].
  - rewrite mult_IZR. unfold toR. right. field. pose proof sc_pos; lra.
Qed.
Lemma mup_R a b : toR a * toR b <= toR (mup a b).
Proof.
  rewrite mup_eq. unfold toR at 3. rewrite opp_IZR. apply Rle_trans with (- (IZR (- (a * b)) / IZR sc) / IZR sc).
  - rewrite opp_IZR, mult_IZR. unfold toR. right. field. pose proof sc_pos; lra.
  - apply Rmult_le_compat_r; [left; apply Rinv_0_lt_compat, sc_pos|]. apply Ropp_le_contravar, div_dn.
Qed.
Lemma mdn_nonneg a b : (0 <= a -> 0 <= b -> 0 <= mdn a b)%Z.
Proof. intros H K. rewrite mdn_eq. apply Z.div_pos; [nia|reflexivity]. Qed.

(** exp (-y) doubled k times. *)
Fixpoint sq_dn (k : nat) (a : Z) : Z := match k with O => a | S k' => sq_dn k' (mdn a a) end.
Fixpoint sq_up (k : nat) (a : Z) : Z := match k with O => a | S k' => sq_up k' (mup a a) end.
Lemma exp_double y : Rtrigo_def.exp (2 * y) = Rtrigo_def.exp y * Rtrigo_def.exp y.
Proof. rewrite <- exp_plus. f_equal. ring. Qed.
Lemma sq_dn_R k : forall a y, (0 <= a)%Z -> toR a <= Rtrigo_def.exp y -> toR (sq_dn k a) <= Rtrigo_def.exp (2 ^ k * y).
Proof.
  induction k as [|k IH]; intros a y Ha H; cbn [sq_dn pow]; [rewrite Rmult_1_l; exact H|]. replace (2 * 2 ^ k * y) with (2 ^ k * (2 * y)) by ring. apply IH; [apply mdn_nonneg; assumption|].
  rewrite exp_double. eapply Rle_trans; [apply mdn_R|]. pose proof (toR_nonneg a Ha). apply Rmult_le_compat; assumption.
Qed.
Lemma sq_up_R k : forall a y, Rtrigo_def.exp y <= toR a -> Rtrigo_def.exp (2 ^ k * y) <= toR (sq_up k a).
Proof.
  induction k as [|k IH]; intros a y H; cbn [sq_up pow]; [rewrite Rmult_1_l; exact H|]. replace (2 * 2 ^ k * y) with (2 ^ k * (2 * y)) by ring. apply IH.
  rewrite exp_double. eapply Rle_trans; [|apply mup_R]. pose proof (exp_pos y). apply Rmult_le_compat; lra.
Qed.
(** Bounds of exp (-t) for t between 0 and 2^35: [t] scaled. *)
Definition exp_dn (t : Z) : Z := sq_dn 35 (sc - (- (- t / 2 ^ 35)))%Z.
Definition exp_up (t : Z) : Z := sq_up 35 (- (- (sc * sc) / (sc + t / 2 ^ 35)))%Z.
Lemma exp_dn_R t r : (0 <= t <= 2 ^ 35 * sc)%Z -> r <= toR t -> toR (exp_dn t) <= Rtrigo_def.exp (- r).
Proof.
  intros Ht' Hr.
  unfold exp_dn. set (y := (- (- t / 2 ^ 35))%Z). assert (Hy : toR t / 2 ^ 35 <= toR y /\ (y <= sc)%Z).
  { assert (K : (t <= y * 2 ^ 35)%Z) by (unfold y; pose proof (Z.mul_div_le (- t) (2 ^ 35) ltac:(reflexivity)); lia). split.
    - apply Rmult_le_reg_r with (2 ^ 35); [apply pow_lt; lra|]. unfold Rdiv. rewrite Rmult_assoc, Rinv_l, Rmult_1_r by (apply pow_nonzero; lra).
      apply Rle_trans with (toR (y * 2 ^ 35)); [apply toR_le, K|]. right. unfold toR. rewrite mult_IZR. change (IZR (2 ^ 35)) with (IZR 34359738368). replace (2 ^ 35) with 34359738368 by (cbn; lra). field. pose proof sc_pos; lra.
    - unfold y. assert (- sc <= - t / 2 ^ 35)%Z; [|lia]. apply Z.div_le_lower_bound; [reflexivity|]. lia. }
  destruct Hy as [Hy1 Hy2]. replace (- r) with (2 ^ 35 * (- r / 2 ^ 35)) by (field). apply sq_dn_R; [lia|].
  apply Rle_trans with (1 + (- r / 2 ^ 35)); [|apply exp_ineq1_le]. apply Rle_trans with (1 - toR y).
  - unfold toR. rewrite minus_IZR. right. field. pose proof sc_pos; lra.
  - assert (r / 2 ^ 35 <= toR t / 2 ^ 35) by (apply Rmult_le_compat_r; [left; apply Rinv_0_lt_compat, pow_lt; lra|exact Hr]). unfold Rdiv in *. lra.
Qed.
Lemma exp_up_R t r : (0 <= t)%Z -> toR t <= r -> Rtrigo_def.exp (- r) <= toR (exp_up t).
Proof.
  intros Ht Hr. unfold exp_up. set (y := (t / 2 ^ 35)%Z). assert (Hy0 : (0 <= y)%Z) by (apply Z.div_pos; [exact Ht|reflexivity]). assert (Hy : toR y <= r / 2 ^ 35).
  { apply Rmult_le_reg_r with (2 ^ 35); [apply pow_lt; lra|]. unfold Rdiv. rewrite Rmult_assoc, Rinv_l, Rmult_1_r by (apply pow_nonzero; lra). eapply Rle_trans; [|exact Hr].
    assert (K : (y * 2 ^ 35 <= t)%Z) by (unfold y; pose proof (Z.mul_div_le t (2 ^ 35) ltac:(reflexivity)); lia).
    apply Rle_trans with (toR (y * 2 ^ 35)); [|apply toR_le, K]. right. unfold toR. rewrite mult_IZR. change (IZR (2 ^ 35)) with (IZR 34359738368). replace (2 ^ 35) with 34359738368 by (cbn; lra). field. pose proof sc_pos; lra. }
  replace (- r) with (2 ^ 35 * (- r / 2 ^ 35)) by field. apply sq_up_R. pose proof (toR_nonneg y Hy0) as Y0.
  apply Rle_trans with (/ (1 + toR y)).
  - replace (- r / 2 ^ 35) with (- (r / 2 ^ 35)) by (unfold Rdiv; ring). rewrite exp_Ropp. apply Rinv_le; [lra|]. eapply Rle_trans; [|apply exp_ineq1_le]. lra.
  - set (q := (- (- (sc * sc) / (sc + y)))%Z). assert (K : (sc * sc <= q * (sc + y))%Z).
    { unfold q. assert (0 < sc)%Z by reflexivity. pose proof (Z.mul_div_le (- (sc * sc)) (sc + y) ltac:(lia)). lia. }
    apply IZR_le in K. rewrite !mult_IZR, plus_IZR in K. pose proof sc_pos as P. apply Rmult_le_reg_r with (1 + toR y); [lra|]. rewrite Rinv_l by lra. unfold toR.
    apply Rmult_le_reg_r with (IZR sc * IZR sc); [nra|]. replace (IZR q / IZR sc * (1 + IZR y / IZR sc) * (IZR sc * IZR sc)) with (IZR q * (IZR sc + IZR y)) by (field; lra). lra.
Qed.

(** The tables as scaled integers. *)
Definition fx (x : f32) : Z := match x with B754_finite false m e _ => if (-120 <=? e)%Z then (Zpos m * 2 ^ (120 + e))%Z else (-1)%Z | _ => (-1)%Z end.
Lemma fx_R x : (0 <= fx x)%Z -> fin32 x /\ R32 x = toR (fx x).
Proof.
  unfold fx. destruct x as [s|s| |s m e V]; try lia. destruct s; [lia|]. destruct (Z.leb_spec (-120) e) as [L|L]; [|lia]. intros _. split; [reflexivity|]. cbn [B2R cond_Zopp]. unfold F2R, toR. cbn [Fnum Fexp].
  rewrite mult_IZR, <- bpow_IZR by lia. unfold sc. rewrite <- bpow_IZR by lia. unfold Rdiv. rewrite <- bpow_opp, Rmult_assoc, <- bpow_plus. do 2 f_equal. lia.
Qed.
Definition Wz (i : nat) : Z := fx (nth i wn (B754_zero false)).
Definition Fz (i : nat) : Z := fx (nth i fn (B754_zero false)).
Definition Xz (i : nat) : Z := (2 ^ 31 * Wz i)%Z.
Definition tol : Z := (sc / 10 ^ 7)%Z.
Lemma tol_R : toR tol <= / 10 ^ 7.
Proof.
  unfold tol, toR. apply Rmult_le_reg_r with (IZR sc * 10 ^ 7); [apply Rmult_lt_0_compat; [apply sc_pos|apply pow_lt; lra]|]. pose proof sc_pos.
  replace (/ 10 ^ 7 * (IZR sc * 10 ^ 7)) with (IZR sc) by (field). replace (IZR (sc / 10 ^ 7) / IZR sc * (IZR sc * 10 ^ 7)) with (IZR (sc / 10 ^ 7) * IZR (10 ^ 7)) by (change (IZR (10 ^ 7)) with (IZR 10000000); replace (10 ^ 7) with 10000000 by (cbn; lra); field; lra).
  rewrite <- mult_IZR. apply IZR_le. pose proof (Z.mul_div_le sc (10 ^ 7) ltac:(reflexivity)). lia.
Qed.
(** The area of a strip, scaled: 0.009912563035. *)
Definition area : Z := (9912563035 * sc / 10 ^ 12)%Z.
Definition half_dn (t : Z) : Z := (t / 2)%Z.
Definition half_up (t : Z) : Z := (- (- t / 2))%Z.
Definition small (t : Z) : bool := ((0 <=? t) && (t <=? 2 ^ 35 * sc))%Z.
Definition row (i : nat) : bool :=
  (let x := Xz i in let f := Fz i in let p := Fz (i - 1) in let b := nth i kn 0 * Wz i + 2 ^ 70 in
   let u := half_up (mup x x) in let d := half_dn (mdn x x) in let c := half_up (mup b b) in
   (0 <=? Wz i) && (0 <=? f) && (f <=? p) && (p <=? sc) && (10 * x <=? 35 * sc) && small u && small d && small c && (0 <=? nth i kn 0) &&
   (f - tol <=? exp_dn u) && (exp_up d <=? f + tol) && (p - tol <=? exp_dn c) &&
   (area - tol <=? mdn x (p - f)) && (mup x (p - f) <=? area + tol))%Z.
Lemma rows_ok : forallb row (seq 1 127) = true.
Proof. vm_compute. reflexivity. Qed.
Definition base_row : bool :=
  ((0 <=? Wz 0) && (0 <=? Wz 127) && (0 <=? Fz 127) && (0 <=? Fz 0) && (Fz 0 =? sc) && (area - tol <=? mdn (Xz 0) (Fz 127)) && (mup (Xz 0) (Fz 127) <=? area + tol) &&
   (Z.abs (nth 0 kn 0 * Wz 0 * 10 ^ 12 - 3442619855899 * sc) <=? 2 * tol * 10 ^ 12) && (Z.abs (Xz 127 * 10 ^ 12 - 3442619855899 * sc) <=? tol * 10 ^ 12))%Z.
Lemma base_ok : base_row = true.
Proof. vm_compute. reflexivity. Qed.
