(** C90: the tables of NormFloat64 are those of the ziggurat method for the normal density, and
    each of its decisions is the one the method asks for. *)
From Coq Require Import ZArith Reals List Bool Lia Lra Psatz.
From Flocq Require Import Core IEEE754.BinarySingleNaN.
From Verif Require Import GoNum FloatLemmas L_F32 L_Norm L_Move M_Random S_Zig P_Random L_Zig.
Import ListNotations.
Local Open Scope R_scope.

Lemma toR_plus a b : toR (a + b) = toR a + toR b. Proof. unfold toR. rewrite plus_IZR. field. pose proof sc_pos; lra. Qed.
Lemma toR_minus a b : toR (a - b) = toR a - toR b. Proof. unfold toR. rewrite minus_IZR. field. pose proof sc_pos; lra. Qed.
Lemma toR_scale k a : toR (k * a) = IZR k * toR a. Proof. unfold toR. rewrite mult_IZR. field. pose proof sc_pos; lra. Qed.
Lemma toR_sc : toR sc = 1. Proof. unfold toR. field. pose proof sc_pos; lra. Qed.
Lemma half_up_R t r : r <= toR t -> r / 2 <= toR (half_up t).
Proof. intros H. assert (K : (t <= 2 * half_up t)%Z) by (unfold half_up; pose proof (Z.mul_div_le (- t) 2 ltac:(lia)); lia). apply toR_le in K. rewrite toR_scale in K. lra. Qed.
Lemma half_dn_R t r : toR t <= r -> toR (half_dn t) <= r / 2.
Proof. intros H. assert (K : (2 * half_dn t <= t)%Z) by (unfold half_dn; pose proof (Z.mul_div_le t 2 ltac:(lia)); lia). apply toR_le in K. rewrite toR_scale in K. lra. Qed.
Lemma small_ok t : small t = true -> (0 <= t <= 2 ^ 35 * sc)%Z.
Proof. unfold small. rewrite andb_true_iff, !Z.leb_le. auto. Qed.
Lemma exp_opp x : density x = Rtrigo_def.exp (- (x * x / 2)). Proof. unfold density. f_equal. field. Qed.
Lemma area_R : 9912563035 / 10 ^ 12 - / 10 ^ 12 <= toR area <= 9912563035 / 10 ^ 12.
Proof.
  assert (K : (area * 10 ^ 12 <= 9912563035 * sc < area * 10 ^ 12 + 10 ^ 12)%Z) by (unfold area; pose proof (Z.mul_div_le (9912563035 * sc) (10 ^ 12) ltac:(reflexivity)); pose proof (Z.mod_pos_bound (9912563035 * sc) (10 ^ 12) ltac:(reflexivity)); pose proof (Z.div_mod (9912563035 * sc) (10 ^ 12) ltac:(discriminate)); lia).
  destruct K as [K1 K2]. apply toR_le in K1. assert (K3 : (9912563035 * sc <= area * 10 ^ 12 + sc)%Z) by (assert (10 ^ 12 <= sc)%Z by (vm_compute; discriminate); lia). apply toR_le in K3.
  rewrite toR_plus, toR_sc in K3. rewrite Z.mul_comm in K1. rewrite (Z.mul_comm area) in K3. rewrite !toR_scale, toR_sc in K1, K3. change (IZR (10 ^ 12)) with 1000000000000 in *. replace (10 ^ 12) with 1000000000000 by (cbn; lra). lra.
Qed.

(** What the check of the tables says about the reals. *)
Record strip (i : nat) : Prop := {
  sp_w : fin32 (nth i wn (B754_zero false)) /\ 0 <= R32 (nth i wn (B754_zero false));
  sp_f : fin32 (nth i fn (B754_zero false)); sp_p : fin32 (nth (i - 1) fn (B754_zero false));
  sp_ord : 0 <= level i /\ level i <= level (i - 1) /\ level (i - 1) <= 1;
  sp_edge : edge i <= 35 / 10;
  sp_k : (0 <= nth i kn 0)%Z;
  sp_level : Rabs (level i - density (edge i)) <= / 10 ^ 7;
  sp_fast : forall x, Rabs x <= IZR (nth i kn 0%Z) * R32 (nth i wn (B754_zero false)) + bpow radix2 (-50) -> level (i - 1) - / 10 ^ 7 <= density x;
  sp_area : Rabs (edge i * (level (i - 1) - level i) - 9912563035 / 10 ^ 12) <= / 10 ^ 7 + / 10 ^ 12 }.
Lemma strips i : (1 <= i < 128)%nat -> strip i.
Proof.
  intros Hi. pose proof rows_ok as T. rewrite forallb_forall in T. specialize (T i). rewrite in_seq in T. specialize (T ltac:(lia)). unfold row in T. cbv zeta in T. rewrite !andb_true_iff, !Z.leb_le in T.
  destruct T as (((((((((((((T1 & T2) & T3) & T4) & T0) & T5) & T6) & T7) & T8) & T9) & T10) & T11) & T12) & T13).
  apply small_ok in T5, T6, T7. assert (T2' : (0 <= Fz (i - 1))%Z) by lia. destruct (fx_R _ T1) as [Wf WR]. destruct (fx_R _ T2) as [Ff FR]. destruct (fx_R _ T2') as [Pf PR]. fold (Wz i) in WR. fold (Fz i) in FR. fold (Fz (i - 1)) in PR.
  assert (E : edge i = toR (Xz i)) by (unfold edge, Xz; rewrite toR_scale, WR; reflexivity).
  assert (L : level i = toR (Fz i)) by (unfold level; exact FR). assert (L' : level (i - 1) = toR (Fz (i - 1))) by (unfold level; exact PR). pose proof tol_R as Ht.
  constructor; try assumption.
  - split; [exact Wf|]. rewrite WR. apply toR_nonneg, T1.
  - rewrite L, L'. split; [apply toR_nonneg, T2|]. split; [apply toR_le, T3|]. rewrite <- toR_sc. apply toR_le, T4.
  - apply toR_le in T0. rewrite !toR_scale, toR_sc, <- E in T0. lra.
  - apply toR_le in T9, T10. rewrite toR_minus in T9. rewrite toR_plus in T10. rewrite <- L in T9, T10. rewrite exp_opp. pose proof (mup_R (Xz i) (Xz i)) as U. pose proof (mdn_R (Xz i) (Xz i)) as D. rewrite <- E in U, D. apply half_up_R in U. apply half_dn_R in D.
    pose proof (exp_dn_R _ _ T5 U). pose proof (exp_up_R _ _ (proj1 T6) D). apply Rabs_le. lra.
  - intros x Hx. apply toR_le in T11. rewrite toR_minus, <- L' in T11. rewrite exp_opp. set (b := (nth i kn 0 * Wz i + 2 ^ 70)%Z) in *.
    assert (B : Rabs x <= toR b). { eapply Rle_trans; [exact Hx|]. unfold b. rewrite toR_plus, toR_scale, WR. apply Rplus_le_compat_l. right. unfold toR, sc, Rdiv. rewrite <- !bpow_IZR by lia. rewrite <- bpow_opp, <- bpow_plus. reflexivity. }
    assert (U : x * x <= toR (mup b b)). { eapply Rle_trans; [|apply mup_R]. pose proof (Rabs_pos x). replace (x * x) with (Rabs x * Rabs x) by (rewrite <- Rabs_mult; apply Rabs_pos_eq; nra). apply Rmult_le_compat; assumption. }
    apply half_up_R in U. pose proof (exp_dn_R _ _ T7 U). lra.
  - apply toR_le in T12, T13. rewrite toR_minus in T12. rewrite toR_plus in T13. pose proof (mup_R (Xz i) (Fz (i - 1) - Fz i)) as U. pose proof (mdn_R (Xz i) (Fz (i - 1) - Fz i)) as D. rewrite toR_minus in U, D. rewrite <- E, <- L, <- L' in U, D. pose proof area_R. apply Rabs_le. lra.
Qed.

(** The levels are the density at the edges. *)
Theorem C90_levels : level 0 = 1 /\ forall i, (1 <= i < 128)%nat -> Rabs (level i - density (edge i)) <= / 10 ^ 7.
Proof.
  split; [|intros i Hi; apply (sp_level i (strips i Hi))]. pose proof base_ok as T. unfold base_row in T. rewrite !andb_true_iff, !Z.leb_le, Z.eqb_eq in T.
  destruct T as ((((((((T1 & T2) & T3) & T4) & T5) & T6) & T7) & T8) & T9). destruct (fx_R _ T4) as [F0 R0]. unfold level. rewrite R0. fold (Fz 0). rewrite T5. apply toR_sc.
Qed.
Print Assumptions C90_levels.
(** Strip 0 is the rectangle up to edge 0 below level 127: all strips have the same area, so that
    each may be chosen with the same probability. *)
Theorem C90_areas : Rabs (edge 0 * level 127 - 9912563035 / 10 ^ 12) <= / 10 ^ 7 + / 10 ^ 12 /\ forall i, (1 <= i < 128)%nat -> Rabs (edge i * (level (i - 1) - level i) - 9912563035 / 10 ^ 12) <= / 10 ^ 7 + / 10 ^ 12.
Proof.
  split; [|intros i Hi; apply (sp_area i (strips i Hi))]. pose proof base_ok as T. unfold base_row in T. rewrite !andb_true_iff, !Z.leb_le, Z.eqb_eq in T.
  destruct T as ((((((((T1 & T2) & T3) & T4) & T5) & T6) & T7) & T8) & T9). destruct (fx_R _ T1) as [_ WR]. destruct (fx_R _ T3) as [_ FR]. fold (Wz 0) in WR. fold (Fz 127) in FR.
  assert (E : edge 0 = toR (Xz 0)) by (unfold edge, Xz; rewrite toR_scale, WR; reflexivity). assert (L : level 127 = toR (Fz 127)) by exact FR.
  apply toR_le in T6, T7. rewrite toR_minus in T6. rewrite toR_plus in T7. pose proof (mup_R (Xz 0) (Fz 127)) as U. pose proof (mdn_R (Xz 0) (Fz 127)) as D. rewrite <- E, <- L in U, D. pose proof area_R. pose proof tol_R. apply Rabs_le. lra.
Qed.
Print Assumptions C90_areas.
(** The base strip begins where the last one ends: at rn. *)
Theorem C90_base : Rabs (IZR (nth 0 kn 0%Z) * R32 (nth 0 wn (B754_zero false)) - 3442619855899 / 10 ^ 12) <= 2 / 10 ^ 7 /\ Rabs (edge 127 - 3442619855899 / 10 ^ 12) <= / 10 ^ 7.
Proof.
  pose proof base_ok as T. unfold base_row in T. rewrite !andb_true_iff, !Z.leb_le, Z.eqb_eq in T. destruct T as ((((((((T1 & T2) & T3) & T4) & T5) & T6) & T7) & T8) & T9).
  destruct (fx_R _ T1) as [_ W0]. destruct (fx_R _ T2) as [_ W1]. fold (Wz 0) in W0. fold (Wz 127) in W1. assert (E : edge 127 = toR (Xz 127)) by (unfold edge, Xz; rewrite toR_scale, W1; reflexivity). rewrite E, W0, <- toR_scale. clear T1 T2 T3 T4 T5 T6 T7 W0 W1 E. pose proof tol_R as Ht.
  assert (X : forall a c k, (Z.abs (a * 10 ^ 12 - c * sc) <= k * 10 ^ 12)%Z -> Rabs (toR a - IZR c / 10 ^ 12) <= toR k).
  { clear. intros a c k K. assert (K1 : (a * 10 ^ 12 - c * sc <= k * 10 ^ 12)%Z) by lia. assert (K2 : (c * sc - a * 10 ^ 12 <= k * 10 ^ 12)%Z) by lia. apply toR_le in K1, K2. rewrite !toR_minus in K1, K2. rewrite !(Z.mul_comm _ (10 ^ 12)), !toR_scale, toR_sc in K1, K2.
    change (IZR (10 ^ 12)) with 1000000000000 in *. replace (10 ^ 12) with 1000000000000 by (cbn; lra). apply Rabs_le. lra. }
  split; [|eapply Rle_trans; [exact (X (Xz 127) 3442619855899%Z tol T9)|exact Ht]]. eapply Rle_trans; [exact (X _ 3442619855899%Z _ T8)|]. rewrite toR_scale. lra.
Qed.
Print Assumptions C90_base.

Lemma f32mul_R x y : fin32 x -> fin32 y -> Rabs (R32 x * R32 y) <= bpow radix2 127 -> fin32 (f32mul x y) /\ R32 (f32mul x y) = rnd32 (R32 x * R32 y).
Proof.
  intros Hx Hy Hb. pose proof (Bmult_correct 24 128 _ _ mode_NE x y) as C. cbn [round_mode] in C. fold (rnd32 (R32 x * R32 y)) in C.
  rewrite (lt_128 _ 127) in C by (lia || exact Hb). destruct C as (C1 & C2 & _). unfold fin32 in *. rewrite Hx, Hy in C2. split; assumption.
Qed.
Lemma exp_near_le a b : a <= 0 -> b <= 0 -> Rabs (Rtrigo_def.exp a - Rtrigo_def.exp b) <= Rabs (a - b).
Proof.
  assert (X : forall a b, a <= b -> b <= 0 -> 0 <= Rtrigo_def.exp b - Rtrigo_def.exp a <= b - a).
  { intros x y H K. pose proof (exp_ineq1_le (x - y)) as E. assert (B : Rtrigo_def.exp y <= 1) by (rewrite <- exp_0; destruct K as [K| ->]; [left; apply exp_increasing, K|right; reflexivity]).
    replace (Rtrigo_def.exp x) with (Rtrigo_def.exp y * Rtrigo_def.exp (x - y)) by (rewrite <- exp_plus; f_equal; ring). pose proof (exp_pos y). split; [|nra].
    assert (Rtrigo_def.exp (x - y) <= 1) by (rewrite <- exp_0; destruct H as [H| ->]; [left; apply exp_increasing; lra|right; f_equal; ring]). nra. }
  intros Ha Hb. destruct (Rle_dec a b) as [H|H].
  - specialize (X a b H Hb). rewrite Rabs_left1, (Rabs_left1 (a - b)) by lra. lra.
  - specialize (X b a ltac:(lra) Ha). rewrite !Rabs_pos_eq by lra. lra.
Qed.
Lemma bp n : (0 <= n)%Z -> bpow radix2 (- n) = / IZR (2 ^ n).
Proof. intros H. rewrite bpow_opp, bpow_IZR by exact H. reflexivity. Qed.

Section Decide.
Context {G : Type} (next : G -> Z * G) (float32 : G -> f32 * G) (log exp : f64 -> f64).
Notation run := (norm_float64 next float32 log exp).
(** math.Exp is within 2^-50 of the exponential function between -8 and 0. *)
Definition exp_near : Prop := forall y, fin y -> -8 <= R64 y <= 0 -> fin (exp y) /\ Rabs (R64 (exp y) - Rtrigo_def.exp (R64 y)) <= bpow radix2 (-50).
(** The float32 computation of the height. *)
Lemma height_near i (u : f32) : strip i -> fin32 u -> 0 <= R32 u < 1 -> let fi := nth i fn (B754_zero false) in let fp := nth (i - 1) fn (B754_zero false) in
  fin32 (f32add fi (f32mul u (f32sub fp fi))) /\ Rabs (R32 (f32add fi (f32mul u (f32sub fp fi))) - height i (R32 u)) <= / IZR (2 ^ 22).
Proof.
  intros [_ Ff Fp (L0 & L1 & L2) _ _ _ _ _] Fu Hu. cbv zeta. unfold height. fold (level i) in *. set (fi := nth i fn (B754_zero false)) in *. set (fp := nth (i - 1) fn (B754_zero false)) in *. assert (Ri : R32 fi = level i) by reflexivity. assert (Rp : R32 fp = level (i - 1)) by reflexivity.
  set (l := level i) in *. set (p := level (i - 1)) in *. clearbody fi fp l p. assert (B127 : 4 <= bpow radix2 127) by (change 4 with (bpow radix2 2); apply bpow_le; lia).
  pose proof (bp 25 ltac:(lia)) as B25. pose proof (bp 24 ltac:(lia)) as B24. change (- (25))%Z with (-25)%Z in B25. change (- (24))%Z with (-24)%Z in B24.
  destruct (f32sub_R fp fi Fp Ff) as [Fd Rd]; [rewrite Rp, Ri, Rabs_pos_eq; lra|]. rewrite Rp, Ri in Rd. pose proof (rnd32_err (p - l) 0 ltac:(lia)) as Ed. change (bpow radix2 0) with 1 in Ed. rewrite Rabs_pos_eq in Ed by lra. specialize (Ed ltac:(lra)). rewrite <- Rd in Ed.
  assert (Hd : 0 <= R32 (f32sub fp fi) <= 1). { rewrite Rd. split; [rewrite <- rnd32_0; apply rnd32_le; lra|]. rewrite <- (rnd32_Z 1) by lia. apply rnd32_le; lra. }
  set (d := f32sub fp fi) in *. clearbody d.
  destruct (f32mul_R u d Fu Fd) as [Fm Rm]; [rewrite Rabs_pos_eq; nra|]. pose proof (rnd32_err (R32 u * R32 d) 0 ltac:(lia)) as Em. change (bpow radix2 0) with 1 in Em. rewrite Rabs_pos_eq in Em by nra. specialize (Em ltac:(nra)). rewrite <- Rm in Em.
  assert (Hm : 0 <= R32 (f32mul u d) <= 1). { rewrite Rm. split; [rewrite <- rnd32_0; apply rnd32_le; nra|]. rewrite <- (rnd32_Z 1) by lia. apply rnd32_le; nra. }
  set (m := f32mul u d) in *. clearbody m.
  destruct (f32add_R fi m Ff Fm) as [Fa Ra]; [rewrite Ri, Rabs_pos_eq; lra|]. rewrite Ri in Ra. pose proof (rnd32_err (l + R32 m) 1 ltac:(lia)) as Ea. change (bpow radix2 1) with 2 in Ea. rewrite Rabs_pos_eq in Ea by lra. specialize (Ea ltac:(lra)). rewrite <- Ra in Ea.
  split; [exact Fa|]. change (0 - 25)%Z with (-25)%Z in *. change (1 - 25)%Z with (-24)%Z in *. rewrite B25 in Ed, Em. rewrite B24 in Ea. apply Rabs_le_inv in Ed, Em, Ea. change (IZR (2 ^ 24)) with 16777216 in *. change (IZR (2 ^ 25)) with 33554432 in *. change (IZR (2 ^ 22)) with 4194304.
  assert (K : Rabs (R32 u * R32 d - R32 u * (p - l)) <= / 16777216). { rewrite <- Rmult_minus_distr_l, Rabs_mult, Rabs_pos_eq by lra. apply Rle_trans with (1 * Rabs (R32 d - (p - l))); [apply Rmult_le_compat_r; [apply Rabs_pos|lra]|]. rewrite Rmult_1_l. apply Rabs_le. lra. }
  apply Rabs_le_inv in K. apply Rabs_le. lra.
Qed.
(** One iteration in strip i, not the base strip: j chooses x, u the height of the point.  A point
    below the density curve is accepted, a point above it is rejected, whichever of the two
    tests is used.  Within 10^-6 of the curve it may be either. *)
Theorem C90_under fuel g w g1 u g2 : exp_near -> next g = (w, g1) -> float32 g1 = (u, g2) -> fin32 u -> 0 <= R32 u < 1 -> (i32 w mod 128 <> 0)%Z -> let i := Z.to_nat (i32 w mod 128) in
  exists x, fin x /\ Rabs (R64 x - IZR (i32 w) * R32 (nth i wn (B754_zero false))) <= / 10 ^ 15 /\
    (height i (R32 u) < density (R64 x) - / 10 ^ 6 -> exists g', run (S fuel) g = Done x g') /\
    (density (R64 x) + / 10 ^ 6 < height i (R32 u) -> run (S fuel) g = run fuel g2).
Proof.
  intros He En Eu Fu Hu Hn i. pose proof (Z.mod_pos_bound (i32 w) 128 ltac:(lia)) as Hm. assert (Hi : (1 <= i < 128)%nat) by (unfold i; lia). pose proof (strips i Hi) as St.
  cbn [norm_float64]. rewrite En, land_mod. fold i. destruct (Z.ltb_spec (i32 w mod 128) 0); [lia|].
  rewrite (nth_error_nth' wn (B754_zero false)) by (rewrite wn_len; lia). rewrite (nth_error_nth' kn 0%Z) by (change (length kn) with 128%nat; lia). rewrite (nth_error_nth' fn (B754_zero false)) by (rewrite fn_len; lia). cbv zeta.
  rewrite Eu. destruct (Z.eqb_spec (i32 w mod 128) 0) as [|_]; [lia|]. replace (Z.to_nat (i32 w mod 128 - 1)) with (i - 1)%nat by (unfold i; lia). rewrite (nth_error_nth' fn (B754_zero false)) by (rewrite fn_len; lia).
  pose proof (i32_range w) as Rw. rewrite (abs_int32_ok _ Rw). set (wi := nth i wn (B754_zero false)). assert (Ew : nth_error wn (Z.to_nat (i32 w mod 128)) = Some wi) by (apply nth_error_nth'; rewrite wn_len; fold i; lia).
  destruct (wedge_ok (i32 w) wi Rw Ew Hn) as [Fx Bx]. set (x := fmul (f64_of_Z (i32 w)) (f64_of_f32 wi)) in *. exists x. split; [exact Fx|].
  destruct (sp_w i St) as [Fw Pw]. fold wi in Fw, Pw. destruct (f64_of_f32_R wi Fw) as [F6 R6]. destruct (of_Z_R (i32 w) ltac:(lia)) as [Fj Rj].
  assert (E15 : / 10 ^ 15 = / 1000000000000000) by (f_equal; cbn; lra). assert (E6 : / 10 ^ 6 = / 1000000) by (f_equal; cbn; lra). assert (E7 : / 10 ^ 7 = / 10000000) by (f_equal; cbn; lra).
  assert (Prod : Rabs (IZR (i32 w) * R32 wi) <= 35 / 10).
  { pose proof (sp_edge i St) as Ed. unfold edge in Ed. fold wi in Ed. rewrite Rabs_mult, (Rabs_pos_eq (R32 wi)) by exact Pw. eapply Rle_trans; [|exact Ed]. apply Rmult_le_compat_r; [exact Pw|]. rewrite <- abs_IZR. apply IZR_le. lia. }
  pose proof (bp 50 ltac:(lia)) as B50. pose proof (bp 51 ltac:(lia)) as B51. pose proof (bp 52 ltac:(lia)) as B52. pose proof (bp 53 ltac:(lia)) as B53. pose proof (bp 24 ltac:(lia)) as B24. change (- (50))%Z with (-50)%Z in B50. change (- (51))%Z with (-51)%Z in B51. change (- (52))%Z with (-52)%Z in B52. change (- (53))%Z with (-53)%Z in B53. change (- (24))%Z with (-24)%Z in B24.
  change (2 ^ 50)%Z with 1125899906842624%Z in B50. change (2 ^ 51)%Z with 2251799813685248%Z in B51. change (2 ^ 52)%Z with 4503599627370496%Z in B52. change (2 ^ 53)%Z with 9007199254740992%Z in B53. change (2 ^ 24)%Z with 16777216%Z in B24.
  assert (Big : 16 <= bpow radix2 1023) by (change 16 with (bpow radix2 4); apply bpow_le; lia).
  assert (Ex : Rabs (R64 x - IZR (i32 w) * R32 wi) <= / 4503599627370496).
  { destruct (fmul_R (f64_of_Z (i32 w)) (f64_of_f32 wi) Fj F6) as [_ Rx]; [rewrite Rj, R6; lra|]. unfold x. rewrite Rx, Rj, R6, <- B52. apply (rnd_err _ 2); [lia|]. change (bpow radix2 2) with 4. lra. }
  split; [rewrite E15; lra|]. destruct (sp_ord i St) as (L0 & L1 & L2). assert (Hh : height i (R32 u) <= level (i - 1)) by (unfold height; nra).
  destruct (Z.ltb_spec (Z.abs (i32 w)) (nth i kn 0%Z)) as [Lk|Lk].
  { split; [intros _; eexists; reflexivity|]. intros Ab. exfalso. assert (Fa : level (i - 1) - / 10 ^ 7 <= density (R64 x)).
    { apply (sp_fast i St). fold wi. rewrite B50. assert (K : Rabs (IZR (i32 w) * R32 wi) <= IZR (nth i kn 0%Z) * R32 wi). { rewrite Rabs_mult, (Rabs_pos_eq (R32 wi)) by exact Pw. apply Rmult_le_compat_r; [exact Pw|]. rewrite <- abs_IZR. apply IZR_le. lia. }
      pose proof (Rabs_triang (IZR (i32 w) * R32 wi) (R64 x - IZR (i32 w) * R32 wi)) as Tr. replace (IZR (i32 w) * R32 wi + (R64 x - IZR (i32 w) * R32 wi)) with (R64 x) in Tr by ring. lra. }
    rewrite E7 in Fa. rewrite E6 in Ab. lra. }
  destruct (height_near i u St Fu Hu) as [Fs Rs]. set (sum := f32add _ _) in *. clearbody sum. change (IZR (2 ^ 22)) with 4194304 in Rs.
  assert (Arg : let y := fmul (fmul (fopp fhalf) x) x in fin y /\ -8 <= R64 y <= 0 /\ Rabs (R64 y - (- (R64 x * R64 x) / 2)) <= / 1125899906842624).
  { clear - Fx Bx B50 B51 B53 Big. cbv zeta. assert (Fo : fin (fopp fhalf)) by reflexivity. assert (Ro : R64 (fopp fhalf) = - / 2) by (unfold fopp; rewrite B2R_Bopp, fhalf_R; reflexivity). apply Rabs_le_inv in Bx.
    assert (Q : Rabs (- / 2 * R64 x) <= 2) by (apply Rabs_le; lra). destruct (fmul_R (fopp fhalf) x Fo Fx) as [Fa Ra]; [rewrite Ro; lra|]. rewrite Ro in Ra. pose proof (rnd_err (- / 2 * R64 x) 1 ltac:(lia)) as Ea. change (bpow radix2 1) with 2 in Ea. specialize (Ea Q). rewrite <- Ra in Ea. change (1 - 54)%Z with (-53)%Z in Ea. rewrite B53 in Ea.
    set (a := fmul (fopp fhalf) x) in *. assert (Sg : R64 a * R64 x <= 0).
    { destruct (Rle_dec 0 (R64 x)) as [P|P]; [assert (R64 a <= 0) by (rewrite Ra, <- rnd_0; apply rnd_le; lra)|assert (0 <= R64 a) by (rewrite Ra, <- rnd_0; apply rnd_le; lra)]; nra. }
    clearbody a. apply Rabs_le_inv in Ea. assert (Q2 : Rabs (R64 a * R64 x - (- (R64 x * R64 x) / 2)) <= 4 * / 9007199254740992).
    { replace (R64 a * R64 x - - (R64 x * R64 x) / 2) with ((R64 a - - / 2 * R64 x) * R64 x) by field. rewrite Rabs_mult, Rmult_comm. apply Rmult_le_compat; try apply Rabs_pos; apply Rabs_le; lra. }
    apply Rabs_le_inv in Q2. assert (Q3 : R64 x * R64 x <= 12) by nra. assert (Q4 : Rabs (R64 a * R64 x) <= 8) by (apply Rabs_le; lra). destruct (fmul_R a x Fa Fx) as [Fy Ry]; [lra|]. pose proof (rnd_err (R64 a * R64 x) 3 ltac:(lia)) as Ey. change (bpow radix2 3) with 8 in Ey. specialize (Ey Q4). rewrite <- Ry in Ey. change (3 - 54)%Z with (-51)%Z in Ey. rewrite B51 in Ey.
    split; [exact Fy|]. apply Rabs_le_inv in Ey. split; [|apply Rabs_le; lra]. split; [lra|]. rewrite Ry, <- rnd_0. apply rnd_le, Sg. }
  cbv zeta in Arg. destruct Arg as (Fy & Hy & Ey). destruct (He _ Fy Hy) as [Fv Ev]. set (y := fmul (fmul (fopp fhalf) x) x) in *. set (v := exp y) in *. clearbody v. rewrite B50 in Ev.
  assert (Dn : Rabs (Rtrigo_def.exp (R64 y) - density (R64 x)) <= / 1125899906842624). { unfold density. eapply Rle_trans; [apply exp_near_le; [lra|nra]|exact Ey]. }
  assert (D1 : 0 < density (R64 x) <= 1). { unfold density. split; [apply exp_pos|]. rewrite <- exp_0. destruct (Rle_lt_or_eq_dec (- (R64 x * R64 x) / 2) 0 ltac:(nra)) as [Z|Z]; [left; apply exp_increasing, Z|rewrite Z; right; reflexivity]. }
  apply Rabs_le_inv in Ev, Dn, Rs. assert (V2 : Rabs (R64 v) <= 2) by (apply Rabs_le; lra). destruct (f32_of_f64_R v Fv) as [F3 R3]; [eapply Rle_trans; [exact V2|]; change 2 with (bpow radix2 1); apply bpow_le; lia|].
  pose proof (rnd32_err (R64 v) 1 ltac:(lia) V2) as E3. rewrite <- R3 in E3. change (1 - 25)%Z with (-24)%Z in E3. rewrite B24 in E3. apply Rabs_le_inv in E3. rewrite (f32lt_R _ _ Fs F3). rewrite E6.
  destruct (Rlt_bool_spec (R32 sum) (R32 (f32_of_f64 v))) as [Lt|Ge]; split; intros Hd; [eexists; reflexivity|exfalso; lra|exfalso; lra|reflexivity].
Qed.

(** math.Log is within 2^-40 of the logarithm on the float32 values between 0 and 1. *)
Definition log_near : Prop := forall u : f32, fin32 u -> 0 < R32 u < 1 -> fin (log (f64_of_f32 u)) /\ Rabs (R64 (log (f64_of_f32 u)) - ln (R32 u)) <= bpow radix2 (-40).
Lemma ln_range (u : f32) : fin32 u -> 0 < R32 u < 1 -> 0 <= - ln (R32 u) <= 149.
Proof.
  intros Fu Hu. split; [rewrite <- ln_1; destruct (Rle_dec (ln (R32 u)) (ln 1)) as [H|H]; [rewrite ln_1 in *; lra|exfalso; apply H; left; apply ln_increasing; lra]|].
  assert (L : bpow radix2 (-149) <= R32 u). { rewrite <- (Rabs_pos_eq (R32 u)) by lra. apply (abs_B2R_ge_emin 24 128). destruct u as [sg|sg| |sg m e V]; try reflexivity; cbn [B2R] in Hu; lra. }
  assert (P : forall n, 2 ^ n <= Rtrigo_def.exp (INR n)).
  { induction n as [|n IH]; [cbn; rewrite exp_0; lra|]. rewrite S_INR, exp_plus. cbn [pow]. rewrite Rmult_comm. pose proof (exp_ineq1_le 1). apply Rmult_le_compat; [apply pow_le; lra|lra|exact IH|lra]. }
  specialize (P 149%nat). replace (INR 149) with 149 in P by (rewrite INR_IZR_INZ; reflexivity).
  assert (Q : Rtrigo_def.exp (Ropp 149) <= R32 u). { eapply Rle_trans; [|exact L]. change (-149)%Z with (- (149))%Z. rewrite exp_Ropp, bpow_opp. apply Rinv_le; [apply bpow_gt_0|]. eapply Rle_trans; [|exact P]. right. rewrite bpow_powerRZ. reflexivity. }
  assert (ln (Rtrigo_def.exp (Ropp 149)) <= ln (R32 u)) by (destruct Q as [Q|Q]; [left; apply ln_increasing; [apply exp_pos|exact Q]|rewrite Q; right; reflexivity]). rewrite ln_exp in H. lra.
Qed.
Definition rr : R := 3442619855899 / 10 ^ 12.
Lemma rn_near : fin rn /\ Rabs (R64 rn - rr) <= bpow radix2 (-52) /\ fin inv_rn /\ Rabs (R64 inv_rn - / rr) <= bpow radix2 (-55).
Proof.
  unfold rn, inv_rn, rr. destruct (of_Z_R 3442619855899 ltac:(lia)) as [F1 R1]. destruct (of_Z_R 1000000000000 ltac:(lia)) as [F2 R2].
  replace (10 ^ 12) with 1000000000000 by (cbn; lra). assert (Big : 16 <= bpow radix2 1023) by (change 16 with (bpow radix2 4); apply bpow_le; lia).
  destruct (fdiv_R _ _ F1 F2) as [Fa Ra]; [rewrite R2; lra|rewrite R1, R2, Rabs_pos_eq; lra|]. destruct (fdiv_R _ _ F2 F1) as [Fb Rb]; [rewrite R1; lra|rewrite R1, R2, Rabs_pos_eq; lra|]. rewrite R1, R2 in Ra, Rb.
  split; [exact Fa|]. split; [rewrite Ra; apply (rnd_err _ 2); [lia|]; change (bpow radix2 2) with 4; rewrite Rabs_pos_eq; lra|]. split; [exact Fb|]. rewrite Rb. replace (/ (3442619855899 / 1000000000000)) with (1000000000000 / 3442619855899) by (field).
  apply (rnd_err _ (-1)); [lia|]. change (bpow radix2 (-1)) with (/ 2). rewrite Rabs_pos_eq; lra.
Qed.
(** One iteration in the base strip beyond rn, where x = -ln u / rn and y = -ln v: accepted if
    x^2 < 2y, and then the result is rn + x with the sign of the word. *)
Theorem C90_tail fuel (sg : bool) g u g1 v g2 : log_near -> float32 g = (u, g1) -> float32 g1 = (v, g2) -> fin32 u -> 0 < R32 u < 1 -> fin32 v -> 0 < R32 v < 1 ->
  let x := - ln (R32 u) / rr in let y := - ln (R32 v) in
  exists z, fin z /\ Rabs (R64 z - (if sg then rr + x else - (rr + x))) <= / 10 ^ 11 /\
    (x * x < 2 * y - / 10 ^ 9 -> base_strip float32 log (S fuel) sg g = Done z g2) /\
    (2 * y + / 10 ^ 9 < x * x -> base_strip float32 log (S fuel) sg g = base_strip float32 log fuel sg g2).
Proof.
  intros Hl Eu Ev Fu Hu Fv Hv x y. cbn [base_strip]. rewrite Eu, Ev. destruct (Hl u Fu Hu) as [FL EL]. destruct (Hl v Fv Hv) as [FM EM]. pose proof (ln_range u Fu Hu) as LU. pose proof (ln_range v Fv Hv) as LV.
  set (a := log (f64_of_f32 u)) in *. set (c := log (f64_of_f32 v)) in *. clearbody a c. destruct rn_near as (Fr & Er & Fi & Ei). set (lu := - ln (R32 u)) in *. fold y in LV.
  assert (E9 : / 10 ^ 9 = / 1000000000) by (f_equal; cbn; lra). assert (E11 : / 10 ^ 11 = / 100000000000) by (f_equal; cbn; lra). rewrite E9, E11.
  pose proof (bp 40 ltac:(lia)) as B40. pose proof (bp 52 ltac:(lia)) as B52. pose proof (bp 55 ltac:(lia)) as B55. pose proof (bp 48 ltac:(lia)) as B48. pose proof (bp 43 ltac:(lia)) as B43. pose proof (bp 45 ltac:(lia)) as B45.
  change (- (40))%Z with (-40)%Z in B40. change (- (52))%Z with (-52)%Z in B52. change (- (55))%Z with (-55)%Z in B55. change (- (48))%Z with (-48)%Z in B48. change (- (43))%Z with (-43)%Z in B43. change (- (45))%Z with (-45)%Z in B45.
  change (2 ^ 40)%Z with 1099511627776%Z in B40. change (2 ^ 52)%Z with 4503599627370496%Z in B52. change (2 ^ 55)%Z with 36028797018963968%Z in B55. change (2 ^ 48)%Z with 281474976710656%Z in B48. change (2 ^ 43)%Z with 8796093022208%Z in B43. change (2 ^ 45)%Z with 35184372088832%Z in B45.
  rewrite B40 in EL, EM. rewrite B52 in Er. rewrite B55 in Ei. assert (Big : 4096 <= bpow radix2 1023) by (change 4096 with (bpow radix2 12); apply bpow_le; lia).
  assert (Hrr : 3442619 / 1000000 <= rr <= 3442620 / 1000000) by (unfold rr; replace (10 ^ 12) with 1000000000000 by (cbn; lra); lra). assert (Hir : 29 / 100 <= / rr <= 3 / 10).
  { split; [apply Rmult_le_reg_r with rr; [lra|]; rewrite Rinv_l by lra; lra|apply Rmult_le_reg_r with rr; [lra|]; rewrite Rinv_l by lra; lra]. }
  apply Rabs_le_inv in EL, EM, Er, Ei. assert (Fo : fin (fopp a)) by (unfold fin, fopp; rewrite is_finite_Bopp; exact FL). assert (Ro : R64 (fopp a) = - R64 a) by (unfold fopp; apply B2R_Bopp).
  assert (Fo' : fin (fopp c)) by (unfold fin, fopp; rewrite is_finite_Bopp; exact FM). assert (Ro' : R64 (fopp c) = - R64 c) by (unfold fopp; apply B2R_Bopp).
  assert (P1 : Rabs (R64 (fopp a) * R64 inv_rn - x) <= 3 / 10 * / 1099511627776 + 150 * / 36028797018963968 + / 281474976710656).
  { unfold x, Rdiv. rewrite Ro. replace (- R64 a * R64 inv_rn - lu * / rr) with ((- R64 a - lu) * / rr + - R64 a * (R64 inv_rn - / rr)) by ring. apply Rle_trans with (Rabs ((- R64 a - lu) * / rr) + Rabs (- R64 a * (R64 inv_rn - / rr))); [apply Rabs_triang|]. rewrite !Rabs_mult.
    assert (Rabs (- R64 a - lu) * Rabs (/ rr) <= / 1099511627776 * (3 / 10)) by (apply Rmult_le_compat; try apply Rabs_pos; apply Rabs_le; unfold lu in *; lra).
    assert (Rabs (- R64 a) * Rabs (R64 inv_rn - / rr) <= 150 * / 36028797018963968) by (apply Rmult_le_compat; try apply Rabs_pos; apply Rabs_le; unfold lu in *; lra). lra. }
  assert (Hx : 0 <= x <= 149 * (3 / 10)) by (unfold x, Rdiv; split; [apply Rmult_le_pos; lra|apply Rmult_le_compat; lra]). apply Rabs_le_inv in P1.
  assert (P2 : Rabs (R64 (fopp a) * R64 inv_rn) <= 64) by (apply Rabs_le; lra). destruct (fmul_R (fopp a) inv_rn Fo Fi) as [Ft Rt]; [lra|]. pose proof (rnd_err _ 6 ltac:(lia) P2) as Et. rewrite <- Rt in Et. change (6 - 54)%Z with (-48)%Z in Et. rewrite B48 in Et. set (t := fmul (fopp a) inv_rn) in *. clearbody t. apply Rabs_le_inv in Et.
  assert (T : Rabs (R64 t - x) <= / 1000000000000) by (apply Rabs_le; lra). clear P1 P2 Rt Et EL. apply Rabs_le_inv in T.
  assert (Q : Rabs (R64 t * R64 t - x * x) <= 100 * / 1000000000000). { replace (R64 t * R64 t - x * x) with ((R64 t + x) * (R64 t - x)) by ring. rewrite Rabs_mult. apply Rmult_le_compat; try apply Rabs_pos; apply Rabs_le; lra. }
  apply Rabs_le_inv in Q. assert (Hxx : 0 <= x * x <= 2000) by nra. assert (Q2 : Rabs (R64 t * R64 t) <= 2048) by (apply Rabs_le; lra). destruct (fmul_R t t Ft Ft) as [Fq Rq]; [lra|]. pose proof (rnd_err _ 11 ltac:(lia) Q2) as Eq. rewrite <- Rq in Eq. change (11 - 54)%Z with (-43)%Z in Eq. rewrite B43 in Eq. apply Rabs_le_inv in Eq.
  assert (Y2 : Rabs (R64 (fopp c) + R64 (fopp c)) <= 512) by (rewrite Ro'; unfold y in *; apply Rabs_le; lra). destruct (fadd_R (fopp c) (fopp c) Fo' Fo') as [Fy Ry]; [lra|]. pose proof (rnd_err _ 9 ltac:(lia) Y2) as Ey. rewrite <- Ry in Ey. change (9 - 54)%Z with (-45)%Z in Ey. rewrite B45 in Ey. apply Rabs_le_inv in Ey. rewrite Ro' in Ey.
  rewrite (fle_R _ _ Fq Fy). set (z := if sg then fadd rn t else fsub (fopp rn) t). exists z.
  assert (Zz : fin z /\ Rabs (R64 z - (if sg then rr + x else - (rr + x))) <= / 100000000000).
  { clear Q Q2 Fq Rq Eq Y2 Fy Ry Ey EM. assert (S1 : Rabs (R64 rn + R64 t) <= 64) by (apply Rabs_le; lra). unfold z. destruct sg.
    - destruct (fadd_R rn t Fr Ft) as [F R]; [lra|]. split; [exact F|]. pose proof (rnd_err _ 6 ltac:(lia) S1) as E. rewrite <- R in E. change (6 - 54)%Z with (-48)%Z in E. rewrite B48 in E. apply Rabs_le_inv in E. apply Rabs_le. lra.
    - assert (Fn : fin (fopp rn)) by (unfold fin, fopp; rewrite is_finite_Bopp; exact Fr). assert (Rn : R64 (fopp rn) = (- R64 rn)%R) by (unfold fopp; apply B2R_Bopp). assert (S2 : Rabs (R64 (fopp rn) - R64 t) <= 64) by (rewrite Rn; apply Rabs_le; lra).
      destruct (fsub_R (fopp rn) t Fn Ft) as [F R]; [lra|]. split; [exact F|]. pose proof (rnd_err _ 6 ltac:(lia) S2) as E. rewrite <- R in E. change (6 - 54)%Z with (-48)%Z in E. rewrite B48, Rn in E. apply Rabs_le_inv in E. apply Rabs_le. lra. }
  destruct Zz as [Fz Ez]. split; [exact Fz|]. split; [exact Ez|]. unfold y in *. destruct (Rle_bool_spec (R64 (fmul t t)) (R64 (fadd (fopp c) (fopp c)))) as [Le|Gt]; split; intros Hd; [reflexivity|exfalso; lra|exfalso; lra|reflexivity].
Qed.
End Decide.
Print Assumptions C90_under.
Print Assumptions C90_tail.

(** * Cases *)
(** Functions as near as the theorems ask. *)
Lemma near_dy (r : R) k : (1 <= k <= 52)%Z -> Rabs r <= 256 -> let z := f64_dy (ZnearestE (r * IZR (2 ^ k))) (- k) in fin z /\ Rabs (R64 z - r) <= bpow radix2 (- k) + bpow radix2 (-45).
Proof.
  intros Hk Hr z. set (m := ZnearestE (r * IZR (2 ^ k))). assert (P : 0 < IZR (2 ^ k)) by (apply (IZR_lt 0), Z.pow_pos_nonneg; lia).
  assert (N : Rabs (IZR m - r * IZR (2 ^ k)) <= / 2) by (unfold m; rewrite <- Rabs_Ropp, Ropp_minus_distr; apply Znearest_half).
  assert (E : Rabs (IZR m * bpow radix2 (- k) - r) <= bpow radix2 (- k)).
  { rewrite (bp k) by lia. replace (IZR m * / IZR (2 ^ k) - r) with ((IZR m - r * IZR (2 ^ k)) * / IZR (2 ^ k)) by (field; lra). rewrite Rabs_mult, (Rabs_pos_eq (/ IZR (2 ^ k))) by (left; apply Rinv_0_lt_compat, P). rewrite <- (Rmult_1_l (/ IZR (2 ^ k))) at 2. apply Rmult_le_compat_r; [left; apply Rinv_0_lt_compat, P|lra]. }
  assert (K1 : bpow radix2 (- k) <= 1) by (change 1 with (bpow radix2 0); apply bpow_le; lia). apply Rabs_le_inv in Hr. apply Rabs_le_inv in E. assert (B : Rabs (IZR m * bpow radix2 (- k)) <= 512) by (apply Rabs_le; lra).
  destruct (f64_dy_R m (- k)) as [F R]; [eapply Rle_trans; [exact B|]; change 512 with (bpow radix2 9); apply bpow_le; lia|]. split; [exact F|]. unfold z. fold m. rewrite R. pose proof (rnd_err _ 9 ltac:(lia) B) as E2. change (9 - 54)%Z with (-45)%Z in E2. apply Rabs_le_inv in E2. apply Rabs_le. lra.
Qed.
Example C90_log_case : log_near (fun y => f64_dy (ZnearestE (ln (R64 y) * IZR (2 ^ 45))) (- 45)).
Proof.
  intros u Fu Hu. destruct (f64_of_f32_R u Fu) as [_ R]. pose proof (ln_range u Fu Hu). destruct (near_dy (ln (R32 u)) 45 ltac:(lia)) as [F E]; [apply Rabs_le; lra|]. cbv beta. rewrite R. split; [exact F|]. eapply Rle_trans; [exact E|].
  change (- (45))%Z with (-45)%Z. rewrite (bpow_plus radix2 (-44) 4 : bpow radix2 (-40) = _). replace (bpow radix2 (-44)) with (2 * bpow radix2 (-45)) by (change 2 with (bpow radix2 1); rewrite <- bpow_plus; reflexivity). pose proof (bpow_gt_0 radix2 (-45)). change (bpow radix2 4) with 16. lra.
Qed.
(** Rounding the exponential to the nearest multiple of 2^-52. *)
Example C90_exp_case : exp_near (fun y => f64_dy (ZnearestE (Rtrigo_def.exp (R64 y) * IZR (2 ^ 52))) (- 52)).
Proof.
  intros y Fy Hy. cbv beta. set (r := Rtrigo_def.exp (R64 y)). assert (Hr : 0 < r <= 1). { unfold r. split; [apply exp_pos|]. rewrite <- exp_0. destruct (Rle_lt_or_eq_dec _ _ (proj2 Hy)) as [H|H]; [left; apply exp_increasing, H|rewrite H; right; reflexivity]. }
  set (m := ZnearestE (r * IZR (2 ^ 52))). assert (N : Rabs (IZR m - r * IZR (2 ^ 52)) <= / 2) by (unfold m; rewrite <- Rabs_Ropp, Ropp_minus_distr; apply Znearest_half). apply Rabs_le_inv in N.
  assert (Hm : (0 <= m <= 2 ^ 52)%Z). { change (IZR (2 ^ 52)) with 4503599627370496 in N. split; [apply Zlt_succ_le, lt_IZR; unfold Z.succ; rewrite plus_IZR; lra|apply Zlt_succ_le, lt_IZR; unfold Z.succ; rewrite plus_IZR; change (IZR (2 ^ 52)) with 4503599627370496; lra]. }
  assert (B : IZR m * bpow radix2 (-52) <= 1). { change (bpow radix2 (-52)) with (bpow radix2 (- (52))); rewrite (bp 52) by lia. apply Rmult_le_reg_r with (IZR (2 ^ 52)); [apply (IZR_lt 0); reflexivity|]. rewrite Rmult_assoc, Rinv_l, Rmult_1_r, Rmult_1_l by (apply not_0_IZR; discriminate). apply IZR_le. lia. }
  assert (B0 : 0 <= IZR m * bpow radix2 (-52)) by (apply Rmult_le_pos; [apply (IZR_le 0); lia|apply bpow_ge_0]).
  destruct (f64_dy_R m (-52)) as [F R]; [rewrite Rabs_pos_eq by exact B0; eapply Rle_trans; [exact B|]; change 1 with (bpow radix2 0); apply bpow_le; lia|]. rewrite rnd_dy in R by lia. split; [exact F|]. change (- (52))%Z with (-52)%Z. rewrite R.
  change (bpow radix2 (-52)) with (bpow radix2 (- (52))); rewrite (bp 52) by lia. change (bpow radix2 (-50)) with (bpow radix2 (- (50))); rewrite (bp 50) by lia. change (IZR (2 ^ 52)) with 4503599627370496 in *. change (IZR (2 ^ 50)) with 1125899906842624. apply Rabs_le. lra.
Qed.

(** Word 2140000064, strip 64, x = 1.5277: beyond the fast path.  A quarter of the way up the point
    is below the curve, three quarters up it is above. *)
Lemma case_x (x : f64) : Rabs (R64 x - IZR (i32 2140000064) * R32 (nth 64 wn (B754_zero false))) <= / 10 ^ 15 -> 15277 / 10000 <= R64 x <= 15278 / 10000 /\ 3112 / 10000 <= density (R64 x) <= 3114 / 10000.
Proof.
  intros H. assert (T : ((0 <=? Wz 64) && (152774 * sc <=? 100000 * (2140000064 * Wz 64)) && (100000 * (2140000064 * Wz 64) <=? 152775 * sc))%Z = true) by (vm_compute; reflexivity). rewrite !andb_true_iff, !Z.leb_le in T. destruct T as [[T0 T1] T2].
  destruct (fx_R _ T0) as [_ W]. fold (Wz 64) in W. rewrite W in H. change (i32 2140000064) with 2140000064%Z in H. rewrite <- toR_scale in H. apply toR_le in T1, T2. rewrite !(toR_scale _ sc), !(toR_scale 100000), toR_sc in T1. rewrite !(toR_scale _ sc), !(toR_scale 100000), toR_sc in T2. replace (/ 10 ^ 15) with (/ 1000000000000000) in H by (f_equal; cbn; lra). apply Rabs_le_inv in H.
  assert (B : 15277 / 10000 <= R64 x <= 15278 / 10000) by lra. split; [exact B|]. clear - B. set (r := R64 x) in *. clearbody r. rewrite exp_opp.
  assert (U : r * r / 2 <= toR (116709 * sc / 100000 + 1)). { apply Rle_trans with (116709 / 100000); [nra|]. assert (K : (116709 * sc <= 100000 * (116709 * sc / 100000 + 1))%Z) by (pose proof (Z.div_mod (116709 * sc) 100000 ltac:(discriminate)); pose proof (Z.mod_pos_bound (116709 * sc) 100000 ltac:(reflexivity)); lia). apply toR_le in K. rewrite !(toR_scale _ sc), (toR_scale 100000), toR_sc in K. lra. }
  assert (D : toR (116693 * sc / 100000) <= r * r / 2). { apply Rle_trans with (116693 / 100000); [|nra]. assert (K : (100000 * (116693 * sc / 100000) <= 116693 * sc)%Z) by (pose proof (Z.mul_div_le (116693 * sc) 100000 ltac:(reflexivity)); lia). apply toR_le in K. rewrite !(toR_scale _ sc), (toR_scale 100000), toR_sc in K. lra. }
  apply exp_dn_R in U; [|split; apply Z.leb_le; vm_compute; reflexivity]. apply exp_up_R in D; [|apply Z.leb_le; vm_compute; reflexivity].
  assert (K1 : (3112 * sc <= 10000 * exp_dn (116709 * sc / 100000 + 1))%Z) by (apply Z.leb_le; vm_compute; reflexivity). assert (K2 : (10000 * exp_up (116693 * sc / 100000) <= 3114 * sc)%Z) by (apply Z.leb_le; vm_compute; reflexivity).
  apply toR_le in K1, K2. rewrite !(toR_scale _ sc), !(toR_scale 10000), toR_sc in K1. rewrite !(toR_scale _ sc), !(toR_scale 10000), toR_sc in K2. lra.
Qed.
Lemma case_height u : 30876 / 100000 + u * (646 / 100000) - 1 / 100000 <= height 64 u <= 30877 / 100000 + u * (647 / 100000) \/ ~ 0 <= u <= 1.
Proof.
  destruct (Rle_dec 0 u) as [U0|]; [|right; lra]. destruct (Rle_dec u 1) as [U1|]; [|right; lra]. left.
  assert (T : ((0 <=? Fz 64) && (0 <=? Fz 63) && (30876 * sc <=? 100000 * Fz 64) && (100000 * Fz 64 <=? 30877 * sc) && (646 * sc <=? 100000 * (Fz 63 - Fz 64)) && (100000 * (Fz 63 - Fz 64) <=? 647 * sc))%Z = true) by (vm_compute; reflexivity). rewrite !andb_true_iff, !Z.leb_le in T. destruct T as [[[[[T0 T1] T2] T3] T4] T5].
  destruct (fx_R _ T0) as [_ A]. destruct (fx_R _ T1) as [_ B]. fold (Fz 64) in A. fold (Fz 63) in B. unfold height. change (64 - 1)%nat with 63%nat. assert (A' : level 64 = toR (Fz 64)) by exact A. assert (B' : level 63 = toR (Fz 63)) by exact B. rewrite A', B'.
  apply toR_le in T2, T3, T4, T5. rewrite !(toR_scale _ sc), !(toR_scale 100000), ?toR_minus, toR_sc in T2. rewrite !(toR_scale _ sc), !(toR_scale 100000), ?toR_minus, toR_sc in T3. rewrite !(toR_scale _ sc), !(toR_scale 100000), ?toR_minus, toR_sc in T4. rewrite !(toR_scale _ sc), !(toR_scale 100000), ?toR_minus, toR_sc in T5. set (p := toR (Fz 64)) in *. set (q := toR (Fz 63)) in *. clearbody p q. nra.
Qed.
Lemma ex_f32_R m : (0 <= m < 2 ^ 24)%Z -> fin32 (f32_dy m (-24)) /\ R32 (f32_dy m (-24)) = IZR m / 16777216.
Proof.
  intros H. assert (E : IZR m * bpow radix2 (-24) = IZR m / 16777216) by (change (-24)%Z with (- (24))%Z; rewrite (bp 24) by lia; reflexivity). assert (B : 0 <= IZR m < 16777216) by (split; [apply (IZR_le 0)|apply (IZR_lt m 16777216)]; lia).
  destruct (f32_dy_R m (-24)) as [F R]; [rewrite E, Rabs_pos_eq by lra; apply Rle_trans with (bpow radix2 0); [change (bpow radix2 0) with 1; lra|apply bpow_le; lia]|]. split; [exact F|]. rewrite R, rnd32_dy by lia. exact E.
Qed.
Example C90_case log exp fuel : exp_near exp ->
  (exists x g', norm_float64 ex_next ex_f32 log exp (S fuel) [2140000064; 4194304]%Z = Done x g' /\ 15277 / 10000 <= R64 x <= 15278 / 10000) /\
  norm_float64 ex_next ex_f32 log exp (S fuel) [2140000064; 12582912]%Z = norm_float64 ex_next ex_f32 log exp fuel [].
Proof.
  intros He. assert (I : i32 2140000064 mod 128 = 64%Z) by reflexivity. assert (E6 : / 10 ^ 6 = / 1000000) by (f_equal; cbn; lra). split.
  - destruct (ex_f32_R 4194304 ltac:(lia)) as [Fu Ru]. destruct (C90_under ex_next ex_f32 log exp fuel [2140000064; 4194304]%Z 2140000064 [4194304]%Z (f32_dy 4194304 (-24)) [] He eq_refl eq_refl Fu) as (x & _ & Ex & A & _); [rewrite Ru; lra|rewrite I; lia|]. rewrite I in Ex, A. change (Z.to_nat 64) with 64%nat in *.
    destruct (case_x x Ex) as [Hx Hd]. destruct A as [g' A]; [destruct (case_height (R32 (f32_dy 4194304 (-24)))) as [K|K]; rewrite Ru, ?E6 in *; lra|]. exists x, g'. split; [exact A|exact Hx].
  - destruct (ex_f32_R 12582912 ltac:(lia)) as [Fu Ru]. destruct (C90_under ex_next ex_f32 log exp fuel [2140000064; 12582912]%Z 2140000064 [12582912]%Z (f32_dy 12582912 (-24)) [] He eq_refl eq_refl Fu) as (x & _ & Ex & _ & A); [rewrite Ru; lra|rewrite I; lia|]. rewrite I in Ex, A. change (Z.to_nat 64) with 64%nat in *.
    destruct (case_x x Ex) as [Hx Hd]. apply A. destruct (case_height (R32 (f32_dy 12582912 (-24)))) as [K|K]; rewrite Ru, ?E6 in *; lra.
Qed.
