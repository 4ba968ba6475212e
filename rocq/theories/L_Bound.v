(** The fitness of an image lies between 0.49 and 1.0001 times the covered fraction (C61). *)
From Coq Require Import ZArith Reals List Bool Lia Lra Permutation Psatz.
From Flocq Require Import Core IEEE754.BinarySingleNaN.
From Verif Require Import GoNum FloatLemmas M_Norm S_Norm M_Slice M_Geom S_Geom M_Image S_Image L_Image M_Raster S_Raster L_Raster1
  M_Render L_Render M_Delaunay M_Algo M_Fitness S_Fitness L_Sums L_Var.
Import ListNotations.
Open Scope Z_scope.

(** * One pixel *)
Local Open Scope R_scope.
Lemma bp (e : Z) (z : Z) : (0 <= e)%Z -> (2 ^ e = z)%Z -> bpow radix2 e = IZR z.
Proof. intros H <-. apply bpow_IZR, H. Qed.
Lemma rnd_le_Z x z : (Z.abs z <= 2 ^ 53)%Z -> x <= IZR z -> rnd x <= IZR z.
Proof. intros H L. rewrite <- (rnd_Z z) by exact H. apply rnd_le, L. Qed.
Lemma rnd_ge_Z x z : (Z.abs z <= 2 ^ 53)%Z -> IZR z <= x -> IZR z <= rnd x.
Proof. intros H L. rewrite <- (rnd_Z z) by exact H. apply rnd_le, L. Qed.
Lemma rnd_near x e : (-1020 <= e)%Z -> 0 <= x <= bpow radix2 e -> x - bpow radix2 (e - 54) <= rnd x <= x + bpow radix2 (e - 54).
Proof.
  intros He [H0 H1]. pose proof (rnd_err x e He) as K. rewrite Rabs_right in K by lra. specialize (K H1). 
  apply Rabs_le_inv in K. assert (B : bpow radix2 (e - 54) <= bpow radix2 (e - 54)) by lra. lra.
Qed.
Lemma rnd_near16 x : 0 <= x <= 65025 -> x - / 1048576 <= rnd x <= x + / 1048576.
Proof.
  intros H. destruct (rnd_near x 16 ltac:(lia)) as [A B]; [rewrite (bp 16 65536) by lia; lra|].
  assert (C : bpow radix2 (16 - 54) <= / 1048576) by (apply Rle_trans with (bpow radix2 (-20)); [apply bpow_le; lia|right; reflexivity]). lra.
Qed.
Lemma term_bounds v : in_unit v -> let p := go_u8 (fmul v (f64_of_Z 255)) in
  (0 <= p <= 255)%Z /\ fin (sq_term v) /\ IZR (p * p) - / 8 <= R64 (sq_term v) <= IZR (255 * (p + 1)) /\ 0 <= R64 (sq_term v) <= 65025.
Proof.
  intros H. cbv zeta. destruct (unit_u8 v H) as [_ Hp]. destruct (unit_sq_term v H) as [Ft Bt]. split; [exact Hp|]. split; [exact Ft|]. split; [|exact Bt].
  destruct (unit_mul255 v H) as [F1 B1]. destruct H as [Fv [V0 V1]]. fold (R64 v) in V0, V1. destruct (of_Z_R 255 ltac:(lia)) as [F2 E2].
  assert (P : IZR (go_u8 (fmul v (f64_of_Z 255))) <= R64 (fmul v (f64_of_Z 255)) < IZR (go_u8 (fmul v (f64_of_Z 255)) + 1)).
  { unfold go_u8 in *. rewrite (go_int_small _ 255) in *; [|exact F1|rewrite Rabs_pos_eq; lra|lia|exact F1|rewrite Rabs_pos_eq; lra|lia].
    assert (T : (0 <= Ztrunc (R64 (fmul v (f64_of_Z 255))) <= 255)%Z) by (apply Ztrunc_range; lra).
    unfold u8, wrapu in *. rewrite Z.mod_small in * by lia. rewrite Ztrunc_floor by lra. rewrite plus_IZR. split; [apply Zfloor_lb|apply Zfloor_ub]. }
  destruct (fmul_R v (f64_of_Z 255) Fv F2) as [_ E1].
  { rewrite E2, Rabs_pos_eq by nra. eapply Rle_trans with (bpow radix2 8); [rewrite (bp 8 256) by lia; lra|apply bpow_le; lia]. }
  rewrite E2 in E1. unfold sq_term. set (a := fmul v (f64_of_Z 255)) in *. set (p := go_u8 a) in *. set (x := R64 a) in *. set (vv := R64 v) in *.
  destruct (rnd_near16 (vv * 255) ltac:(lra)) as [N1 N1']. rewrite <- E1 in N1, N1'.
  assert (Bxv : 0 <= x * vv <= x) by nra.
  destruct (fmul_R a v F1 Fv) as [F3 E3].
  { fold x vv. rewrite Rabs_pos_eq by lra. eapply Rle_trans with (bpow radix2 8); [rewrite (bp 8 256) by lia; lra|apply bpow_le; lia]. }
  fold x vv in E3. destruct (rnd_near16 (x * vv) ltac:(lra)) as [N2 _]. rewrite <- E3 in N2.
  assert (Y : 0 <= R64 (fmul a v) <= x). { rewrite E3. split; [rewrite <- rnd_0; apply rnd_le; lra|]. replace x with (rnd x) at 2 by apply rnd_R64. apply rnd_le; lra. }
  set (y := R64 (fmul a v)) in *.
  destruct (fmul_R (fmul a v) (f64_of_Z 255) F3 F2) as [_ E4].
  { fold y. rewrite E2, Rabs_pos_eq by lra. eapply Rle_trans with (bpow radix2 16); [rewrite (bp 16 65536) by lia; lra|apply bpow_le; lia]. }
  fold y in E4. rewrite E2 in E4. destruct (rnd_near16 (y * 255) ltac:(lra)) as [N3 _]. rewrite <- E4 in N3.
  split.
  - rewrite mult_IZR. assert (P0 : 0 <= IZR p) by (apply IZR_le; lia). clearbody p x y vv. 
    assert (A1 : x * x - x * / 1048576 <= 255 * (x * vv)) by nra. assert (A2 : IZR p * IZR p <= x * x) by nra. lra.
  - rewrite E4. apply rnd_le_Z; [lia|]. rewrite mult_IZR. lra.
Qed.

Lemma sq_bounds c : rgb_unit c -> let p := to_pixel c in (exact_sq p - 1 <= p_sq p <= 255 * (p_r p + p_g p + p_b p) + 765)%Z.
Proof.
  intros U. pose proof (unit_sq c U) as US. destruct U as (H1 & H2 & H3). cbv zeta. unfold exact_sq. cbn [to_pixel p_r p_g p_b p_sq].
  destruct (term_bounds _ H1) as (P1 & F1 & T1 & B1). destruct (term_bounds _ H2) as (P2 & F2 & T2 & B2). destruct (term_bounds _ H3) as (P3 & F3 & T3 & B3). cbv zeta in *.
  unfold sq_expr in *. cbv zeta in *. fold (sq_term (cr c)) (sq_term (cg c)) (sq_term (cb c)) in *.
  set (p1 := go_u8 (fmul (cr c) (f64_of_Z 255))) in *. set (p2 := go_u8 (fmul (cg c) (f64_of_Z 255))) in *. set (p3 := go_u8 (fmul (cb c) (f64_of_Z 255))) in *.
  set (t1 := sq_term (cr c)) in *. set (t2 := sq_term (cg c)) in *. set (t3 := sq_term (cb c)) in *.
  destruct (fadd_R _ _ F1 F2) as [F4 E4].
  { rewrite Rabs_pos_eq by lra. eapply Rle_trans with (bpow radix2 18); [rewrite (bp 18 262144) by lia; lra|apply bpow_le; lia]. }
  assert (C : bpow radix2 (18 - 54) <= / 8) by (change (/ 8) with (bpow radix2 (-3)); apply bpow_le; lia).
  destruct (rnd_near (R64 t1 + R64 t2) 18 ltac:(lia)) as [N4 _]; [rewrite (bp 18 262144) by lia; lra|]. rewrite <- E4 in N4.
  assert (U4 : R64 (fadd t1 t2) <= IZR (255 * (p1 + 1) + 255 * (p2 + 1))) by (rewrite E4; apply rnd_le_Z; [lia|]; rewrite plus_IZR; lra).
  assert (B4 : 0 <= R64 (fadd t1 t2) <= 130050).
  { rewrite E4. split; [apply (rnd_ge_Z _ 0); [lia|lra]|apply (rnd_le_Z _ 130050); [lia|lra]]. }
  destruct (fadd_R _ _ F4 F3) as [F5 E5].
  { rewrite Rabs_pos_eq by lra. eapply Rle_trans with (bpow radix2 18); [rewrite (bp 18 262144) by lia; lra|apply bpow_le; lia]. }
  destruct (rnd_near (R64 (fadd t1 t2) + R64 t3) 18 ltac:(lia)) as [N5 _]; [rewrite (bp 18 262144) by lia; lra|]. rewrite <- E5 in N5.
  assert (U5 : R64 (fadd (fadd t1 t2) t3) <= IZR (255 * (p1 + 1) + 255 * (p2 + 1) + 255 * (p3 + 1))) by (rewrite E5; apply rnd_le_Z; [lia|]; rewrite plus_IZR; lra).
  assert (B5 : 0 <= R64 (fadd (fadd t1 t2) t3) <= 195075).
  { rewrite E5. split; [apply (rnd_ge_Z _ 0); [lia|lra]|apply (rnd_le_Z _ 195075); [lia|lra]]. }
  set (s := fadd (fadd t1 t2) t3) in *. unfold go_u32 in *. rewrite (go_int_small _ 195075) in *; [|exact F5|rewrite Rabs_pos_eq; lra|lia|exact F5|rewrite Rabs_pos_eq; lra|lia].
  assert (T : (0 <= Ztrunc (R64 s) <= 195075)%Z) by (apply Ztrunc_range; lra).
  unfold u32, wrapu in *. rewrite Z.mod_small in * by lia. rewrite Ztrunc_floor in * by lra.
  pose proof (Zfloor_lb (R64 s)) as L. pose proof (Zfloor_ub (R64 s)) as Ub.
  assert (L2 : IZR (p1 * p1) + IZR (p2 * p2) + IZR (p3 * p3) - 5 / 8 <= R64 s) by lra. rewrite <- !plus_IZR in L2.
  split.
  - enough (p1 * p1 + p2 * p2 + p3 * p3 < Zfloor (R64 s) + 2)%Z by lia. apply lt_IZR. rewrite (plus_IZR (Zfloor (R64 s)) 2). lra.
  - apply le_IZR. apply Rle_trans with (R64 s); [exact L|]. eapply Rle_trans; [exact U5|]. apply IZR_le. lia.
Qed.

(** * The sums of a triangle *)
Local Open Scope Z_scope.
Lemma stored_bounds im p : good_image im -> inside im p -> let q := stored im p in exact_sq q - 1 <= p_sq q <= 255 * (p_r q + p_g q + p_b q) + 765.
Proof.
  intros (_ & _ & G) [Hx Hy]. cbv zeta. unfold stored. destruct (G (fst p) (snd p) Hx Hy) as (c & -> & U). exact (sq_bounds c U).
Qed.
Lemma sum_over_scale {A} (c : Z) (f : A -> Z) l : sum_over (fun a => c * f a) l = c * sum_over f l.
Proof. unfold sum_over. induction l as [|a l IH]; cbn [fold_right]; lia. Qed.
Lemma sums_bounds im l : good_image im -> Forall (inside im) l -> let s := pixel_sums im l in
  s_r s * s_r s + s_g s * s_g s + s_b s * s_b s <= s_n s * (s_sq s + s_n s) /\ s_sq s <= 255 * (s_r s + s_g s + s_b s) + 765 * s_n s.
Proof.
  intros G F. rewrite Forall_forall in F. pose proof (squares_exact im l) as H. cbv zeta in *.
  assert (N0 : Z.of_nat (length l) = sum_over (fun _ : Z * Z => 1) l) by (rewrite sum_over_const; lia). split.
  - assert (K : sum_over (fun p => exact_sq (stored im p)) l <= s_sq (pixel_sums im l) + s_n (pixel_sums im l)).
    { cbn [pixel_sums s_sq s_n]. rewrite N0, <- sum_over_plus. apply sum_over_le. intros p Hp. pose proof (stored_bounds im p G (F p Hp)). cbv zeta in *. lia. }
    assert (0 <= s_n (pixel_sums im l)) by (cbn [pixel_sums s_n]; lia). eapply Z.le_trans; [exact H|]. apply Z.mul_le_mono_nonneg_l; assumption.
  - cbn [pixel_sums s_n s_r s_g s_b s_sq]. rewrite <- !sum_over_plus, <- sum_over_scale, <- (sum_over_const 765 l), <- sum_over_plus.
    apply sum_over_le. intros p Hp. apply (stored_bounds im p G (F p Hp)).
Qed.
Lemma spread_bound n r g b sq : 0 <= n -> sq <= 255 * (r + g + b) + 765 * n -> 4 * (n * sq) <= 4 * (r * r + g * g + b * b) + 198135 * (n * n).
Proof.
  intros Hn H. assert (A : n * sq <= n * (255 * (r + g + b) + 765 * n)) by (apply Z.mul_le_mono_nonneg_l; assumption).
  pose proof (Z.square_nonneg (255 * n - 2 * r)). pose proof (Z.square_nonneg (255 * n - 2 * g)). pose proof (Z.square_nonneg (255 * n - 2 * b)). nia.
Qed.

Local Open Scope R_scope.
Lemma diff_upper s : (0 < s_n s <= 6876000)%Z -> (0 <= s_r s <= 255 * s_n s)%Z -> (0 <= s_g s <= 255 * s_n s)%Z -> (0 <= s_b s <= 255 * s_n s)%Z ->
  (0 <= s_sq s <= 195075 * s_n s)%Z -> (s_sq s <= 255 * (s_r s + s_g s + s_b s) + 765 * s_n s)%Z ->
  R64 (diff_of s) <= IZR (49535 * s_n s).
Proof.
  intros Hn Hr Hg Hb Hq Hs. pose proof (spread_bound (s_n s) (s_r s) (s_g s) (s_b s) (s_sq s) ltac:(lia) Hs) as K. clear Hs.
  unfold diff_of in *. destruct (Z.eqb_spec (s_n s) 0) as [E|E]; [lia|].
  assert (Q1 : (0 <= s_r s * s_r s <= 65025 * (s_n s * s_n s))%Z) by nia.
  assert (Q2 : (0 <= s_g s * s_g s <= 65025 * (s_n s * s_n s))%Z) by nia.
  assert (Q3 : (0 <= s_b s * s_b s <= 65025 * (s_n s * s_n s))%Z) by nia.
  assert (Q4 : (0 <= s_n s * s_n s <= 47279376000000)%Z) by nia.
  rewrite (i64_small (s_r s * s_r s)), (i64_small (s_g s * s_g s)), (i64_small (s_b s * s_b s)) by lia.
  rewrite (i64_small (_ + s_g s * s_g s)) by lia. rewrite (i64_small (_ + s_b s * s_b s)) by lia.
  set (S := (s_r s * s_r s + s_g s * s_g s + s_b s * s_b s)%Z) in *.
  assert (HS : (0 <= S < 2 ^ 63)%Z) by (unfold S; lia). assert (HS2 : (S <= 195075 * (s_n s * s_n s))%Z) by (unfold S; lia). clearbody S.
  destruct (of_Z_R (s_sq s) ltac:(lia)) as [F1 E1]. destruct (of_Z_big S ltac:(lia)) as [F2 E2]. destruct (of_Z_R (s_n s) ltac:(lia)) as [F3 E3].
  set (n := IZR (s_n s)) in *. assert (Pn : 1 <= n) by (apply IZR_le; lia). assert (Un : n <= 6876000) by (apply IZR_le; lia).
  assert (KS : n * IZR (s_sq s) <= IZR S + 49534 * (n * n) - n * n / 4).
  { apply IZR_le in K. rewrite plus_IZR, !mult_IZR in K. fold n in K. lra. }
  assert (R0 : 0 <= IZR S <= 195075 * (n * n)) by (split; [apply IZR_le; lia|]; apply IZR_le in HS2; rewrite !mult_IZR in HS2; exact HS2).
  assert (RS : IZR S - n * n / 32 <= rnd (IZR S) <= IZR S + n * n / 32).
  { pose proof (rnd_rel (IZR S)) as RR. apply Rabs_le_inv in RR. rewrite (Rabs_right (IZR S)) in RR by lra.
    assert (U4 : bpow radix2 (-1075) <= / 64) by (change (/ 64) with (bpow radix2 (-6)); apply bpow_le; lia).
    assert (U5 : 0 < bpow radix2 (-53) <= / 33554432) by (split; [apply bpow_gt_0|]; change (/ 33554432) with (bpow radix2 (-25)); apply bpow_le; lia).
    assert (N2 : 1 <= n * n) by nra. assert (bpow radix2 (-53) * IZR S <= / 33554432 * (195075 * (n * n))) by (apply Rmult_le_compat; lra). lra. }
  set (T := rnd (IZR S)) in *. 
  assert (T0 : 0 <= T) by (unfold T; rewrite <- rnd_0; apply rnd_le; lra).
  assert (D : T / n * n = T) by (unfold Rdiv; rewrite Rmult_assoc, Rinv_l; lra). set (q := T / n) in *.
  assert (Q0 : 0 <= q) by (unfold q; apply Rmult_le_pos; [lra|]; apply Rlt_le, Rinv_0_lt_compat; lra).
  assert (QU : q <= 195076 * n). { apply Rmult_le_reg_r with n; [lra|]. rewrite D. nra. }
  assert (QL : IZR (s_sq s) - 49534 * n + n / 8 <= q). { apply Rmult_le_reg_r with n; [lra|]. rewrite D. nra. }
  assert (B : 195076 * n <= bpow radix2 41). { rewrite (bp 41 2199023255552) by lia. lra. }
  destruct (fdiv_R (f64_of_Z S) (f64_of_Z (s_n s)) F2 F3) as [F4 E4]; [rewrite E3; fold n; lra|rewrite E2, E3; fold n; fold T; fold q; rewrite Rabs_right by lra; apply Rle_trans with (bpow radix2 41); [lra|apply bpow_le; lia]|].
  rewrite E2, E3 in E4. fold n T q in E4.
  destruct (rnd_near q 41 ltac:(lia)) as [N1 N2]; [lra|].
  assert (C : bpow radix2 (41 - 54) <= / 8) by (change (/ 8) with (bpow radix2 (-3)); apply bpow_le; lia).
  assert (PQ : 0 <= IZR (s_sq s) <= 195075 * n) by (split; [apply IZR_le; lia|]; unfold n; rewrite <- mult_IZR; apply IZR_le; lia).
  assert (RQ : 0 <= rnd q) by (rewrite <- rnd_0; apply rnd_le; lra).
  destruct (fsub_R (f64_of_Z (s_sq s)) _ F1 F4) as [_ E5].
  { rewrite E1, E4. apply Rle_trans with (bpow radix2 53); [|apply bpow_le; lia]. rewrite (bp 53 9007199254740992) by lia. apply Rabs_le. lra. }
  rewrite E5, E1, E4. apply rnd_le_Z; [lia|]. rewrite mult_IZR. fold n. lra.
Qed.

(** The score of a list of pixels. *)
Lemma diff_range s : (0 <= s_n s <= 6876000)%Z -> (0 <= s_r s <= 255 * s_n s)%Z -> (0 <= s_g s <= 255 * s_n s)%Z -> (0 <= s_b s <= 255 * s_n s)%Z ->
  (0 <= s_sq s <= 195075 * s_n s)%Z -> (s_r s * s_r s + s_g s * s_g s + s_b s * s_b s <= s_n s * (s_sq s + s_n s))%Z -> (s_sq s <= 255 * (s_r s + s_g s + s_b s) + 765 * s_n s)%Z ->
  fin (diff_of s) /\ IZR (- (2 * s_n s)) <= R64 (diff_of s) <= IZR (49535 * s_n s).
Proof.
  intros Hn Hr Hg Hb Hq Hs1 Hs2. destruct (Z.eq_dec (s_n s) 0) as [E|E].
  - unfold diff_of. rewrite E. cbn [Z.eqb]. split; [reflexivity|]. rewrite f0_R. cbn. lra.
  - destruct (diff_lower s ltac:(lia) Hr Hg Hb Hq Hs1) as [F [L _]]. split; [exact F|]. split; [|apply diff_upper; lia].
    eapply Rle_trans; [|exact L]. apply IZR_le. lia.
Qed.

(** * The loop over the triangles *)
Lemma half_dy z : IZR z / 2 = IZR z * bpow radix2 (-1).
Proof. reflexivity. Qed.
Lemma rnd_half z : (Z.abs z <= 2 ^ 53)%Z -> rnd (IZR z / 2) = IZR z / 2.
Proof. intros H. rewrite half_dy. apply rnd_dy; [exact H|lia]. Qed.
Lemma small_bp r : Rabs r <= 1152921504606846976 -> Rabs r <= bpow radix2 1023.
Proof. intros H. eapply Rle_trans; [exact H|]. change 1152921504606846976 with (IZR (2 ^ 60)). change (IZR (2 ^ 60)) with (bpow radix2 60). apply bpow_le. lia. Qed.
Lemma tri_area_val a b c : (forall p, In p [a; b; c] -> 0 <= px p <= 32767 /\ 0 <= py p <= 32767)%Z ->
  fin (tri_area a b c) /\ R64 (tri_area a b c) = IZR (Z.abs (area2 a b c)) / 2.
Proof.
  intros H. pose proof (H a ltac:(cbn; auto)) as [A1 A2]. pose proof (H b ltac:(cbn; auto)) as [B1 B2]. pose proof (H c ltac:(cbn; auto)) as [C1 C2]. clear H.
  unfold tri_area. cbv zeta. unfold area2.
  assert (I : forall z, (- 32767 <= z <= 32767)%Z -> i16 z = z).
  { intros z Hz. unfold i16, wraps. change (2 ^ (16 - 1))%Z with 32768%Z. change (2 ^ 16)%Z with 65536%Z. rewrite Z.mod_small by lia. lia. }
  rewrite !I by lia.
  assert (P : forall z w, (- 32767 <= z <= 32767)%Z -> (- 32767 <= w <= 32767)%Z -> fin (fmul (f64_of_Z z) (f64_of_Z w)) /\ R64 (fmul (f64_of_Z z) (f64_of_Z w)) = IZR (z * w) /\ (Z.abs (z * w) <= 2 ^ 30)%Z).
  { intros z w Hz Hw. destruct (of_Z_R z ltac:(lia)) as [F1 E1]. destruct (of_Z_R w ltac:(lia)) as [F2 E2].
    assert (B : (Z.abs (z * w) <= 2 ^ 30)%Z) by nia.
    destruct (fmul_R _ _ F1 F2) as [F3 E3].
    - rewrite E1, E2, <- mult_IZR. apply small_bp. rewrite <- abs_IZR. apply IZR_le. lia.
    - split; [exact F3|]. split; [|exact B]. rewrite E3, E1, E2, <- mult_IZR. apply rnd_Z. lia. }
  destruct (P (px b - px a)%Z (py c - py a)%Z ltac:(lia) ltac:(lia)) as (F1 & E1 & G1). destruct (P (px c - px a)%Z (py b - py a)%Z ltac:(lia) ltac:(lia)) as (F2 & E2 & G2).
  revert F1 E1 F2 E2. generalize (fmul (f64_of_Z (px b - px a)) (f64_of_Z (py c - py a))) (fmul (f64_of_Z (px c - px a)) (f64_of_Z (py b - py a))). intros u v F1 E1 F2 E2.
  set (k1 := ((px b - px a) * (py c - py a))%Z) in *. set (k2 := ((px c - px a) * (py b - py a))%Z) in *. clearbody k1 k2.
  destruct (fsub_R _ _ F1 F2) as [F3 E3]; [rewrite E1, E2, <- minus_IZR; apply small_bp; rewrite <- abs_IZR; apply IZR_le; lia|].
  rewrite E1, E2, <- minus_IZR, rnd_Z in E3 by lia.
  assert (HH : R64 fhalf * IZR (k1 - k2) = IZR (k1 - k2) / 2) by (rewrite fhalf_R; lra).
  destruct (fmul_R fhalf _ fhalf_fin F3) as [F4 E4].
  { rewrite E3, HH. apply small_bp. unfold Rdiv. rewrite Rabs_mult, <- abs_IZR, (Rabs_right (/ 2)) by lra.
    assert (IZR (Z.abs (k1 - k2)) <= 1152921504606846976) by (apply IZR_le; lia). assert (0 <= IZR (Z.abs (k1 - k2))) by (apply IZR_le; lia). lra. }
  rewrite E3, HH, rnd_half in E4 by lia.
  destruct (fabs_R _ F4) as [F5 E5]. split; [exact F5|]. rewrite E5, E4. unfold Rdiv. rewrite Rabs_mult, <- abs_IZR, (Rabs_right (/ 2)) by lra. reflexivity.
Qed.

Definition dbl (t : dtri) : Z := Z.abs (area2 (d_a t) (d_b t) (d_c t)).
Lemma acc_diff x v lo hi l u : fin x -> fin v -> IZR lo <= R64 x <= IZR hi -> IZR l <= R64 v <= IZR u -> (Z.abs (lo + l) <= 2 ^ 53)%Z -> (Z.abs (hi + u) <= 2 ^ 53)%Z ->
  fin (fadd x v) /\ IZR (lo + l) <= R64 (fadd x v) <= IZR (hi + u).
Proof.
  intros Fx Fv Hx Hv L U. assert (B : IZR (lo + l) <= R64 x + R64 v <= IZR (hi + u)) by (rewrite !plus_IZR; lra).
  destruct (fadd_R x v Fx Fv) as [F E].
  - apply small_bp. apply Rabs_le. assert (-9007199254740992 <= IZR (lo + l)) by (apply IZR_le; lia). assert (IZR (hi + u) <= 9007199254740992) by (apply IZR_le; lia). lra.
  - split; [exact F|]. rewrite E. split; [apply rnd_ge_Z|apply rnd_le_Z]; assumption || apply B.
Qed.
Section Loop.
Context (fi : fimg) (B : Z).
Hypothesis HB : (0 <= B <= 2 ^ 33)%Z.
Lemma sums_loop ts : forall A x y x' y', (0 <= A)%Z -> (A + sum_over dbl ts <= B)%Z ->
  (forall t, In t ts -> (forall p, In p [d_a t; d_b t; d_c t] -> 0 <= px p <= 32767 /\ 0 <= py p <= 32767)%Z /\
     forall v, tri_diff fi (d_a t) (d_b t) (d_c t) = Some v -> fin v /\ IZR (- (2 * dbl t)) <= R64 v <= IZR (49535 * dbl t)) ->
  fin x -> fin y -> IZR (- (2 * A)) <= R64 x <= IZR (49535 * A) -> R64 y = IZR A / 2 ->
  foldM (fun (da : f64 * f64) t => match tri_diff fi (d_a t) (d_b t) (d_c t) with None => None
      | Some v => Some (fadd (fst da) v, fadd (snd da) (tri_area (d_a t) (d_b t) (d_c t))) end) ts (x, y) = Some (x', y') ->
  let A' := (A + sum_over dbl ts)%Z in fin x' /\ fin y' /\ IZR (- (2 * A')) <= R64 x' <= IZR (49535 * A') /\ R64 y' = IZR A' / 2.
Proof.
  induction ts as [|t ts IH]; intros A x y x' y' HA HS HT Fx Fy Bx Ey; cbn [foldM sum_over fold_right].
  - intros [= <- <-]. rewrite Z.add_0_r. auto.
  - fold (sum_over dbl ts). cbn [sum_over fold_right] in HS. fold (sum_over dbl ts) in HS.
    assert (S0 : (0 <= sum_over dbl ts)%Z) by (rewrite <- (Z.mul_0_l (Z.of_nat (length ts))), <- (sum_over_const 0 ts); apply sum_over_le; intros; unfold dbl; lia).
    assert (D0 : (0 <= dbl t)%Z) by (unfold dbl; lia).
    destruct (HT t (or_introl eq_refl)) as [V1 V2]. destruct (tri_diff fi (d_a t) (d_b t) (d_c t)) as [v|] eqn:Ev; [|discriminate]. cbn [fst snd]. intros H.
    destruct (V2 v eq_refl) as [Fv Bv]. destruct (tri_area_val _ _ _ V1) as [Fa Ea]. fold (dbl t) in Ea.
    destruct (acc_diff x v (- (2 * A)) (49535 * A) (- (2 * dbl t)) (49535 * dbl t) Fx Fv Bx Bv ltac:(lia) ltac:(lia)) as [F1 B1].
    destruct (fadd_R y _ Fy Fa) as [F2 E2].
    { rewrite Ey, Ea. apply small_bp. apply Rabs_le. assert (0 <= IZR A <= 8589934592) by (split; apply IZR_le; lia). assert (0 <= IZR (dbl t) <= 8589934592) by (split; apply IZR_le; lia). lra. }
    assert (E3 : R64 (fadd y (tri_area (d_a t) (d_b t) (d_c t))) = IZR (A + dbl t) / 2).
    { rewrite E2, Ey, Ea. replace (IZR A / 2 + IZR (dbl t) / 2) with (IZR (A + dbl t) / 2) by (rewrite plus_IZR; lra). apply rnd_half. lia. }
    rewrite Z.add_assoc. apply (IH (A + dbl t)%Z _ _ x' y' ltac:(lia) ltac:(lia)) in H; try assumption.
    + intros u Hu. apply HT. right. exact Hu.
    + replace (- (2 * (A + dbl t)))%Z with (- (2 * A) + - (2 * dbl t))%Z by lia. replace (49535 * (A + dbl t))%Z with (49535 * A + 49535 * dbl t)%Z by lia. exact B1.
Qed.
End Loop.

(** * The fitness *)
Lemma fit_value (wh A : Z) (x y m : f64) : (1 <= wh <= 3686400)%Z -> (0 <= A <= 2 * wh)%Z -> fin x -> fin y -> fin m ->
  IZR (- (2 * A)) <= R64 x <= IZR (49535 * A) -> R64 y = IZR A / 2 -> R64 m = IZR (195075 * wh) ->
  let f := fsub f1 (fdiv (fadd x (fmul (f64_of_Z max_pixel_difference) (fsub (f64_of_Z wh) y))) m) in
  fin f /\ 0.49 * (IZR A / IZR (2 * wh)) <= R64 f <= 1.0001 * (IZR A / IZR (2 * wh)).
Proof.
  intros Hw HA Fx Fy Fm Bx Ey Em. cbv zeta.
  destruct (of_Z_R wh ltac:(lia)) as [Fw Ew].
  assert (W : 1 <= IZR wh <= 3686400) by (split; apply IZR_le; lia). assert (RA : 0 <= IZR A <= 2 * IZR wh) by (rewrite <- mult_IZR; split; apply IZR_le; lia).
  destruct (fsub_R _ _ Fw Fy) as [F1 E1]; [rewrite Ew, Ey; apply small_bp, Rabs_le; lra|].
  replace (R64 (f64_of_Z wh) - R64 y) with (IZR (2 * wh - A) / 2) in E1 by (rewrite Ew, Ey, minus_IZR, mult_IZR; lra). rewrite rnd_half in E1 by lia.
  destruct (of_Z_R max_pixel_difference ltac:(unfold max_pixel_difference; lia)) as [F5 E5]. unfold max_pixel_difference in *.
  assert (RB : 0 <= IZR (2 * wh - A) <= 7372800) by (split; apply IZR_le; lia).
  destruct (fmul_R _ _ F5 F1) as [F2 E2]; [rewrite E5, E1; apply small_bp, Rabs_le; lra|].
  replace (R64 (f64_of_Z 195075) * R64 (fsub (f64_of_Z wh) y)) with (IZR (195075 * (2 * wh - A)) / 2) in E2 by (rewrite E5, E1, mult_IZR; lra). rewrite rnd_half in E2 by lia.
  set (b := fmul (f64_of_Z 195075) (fsub (f64_of_Z wh) y)) in *. clearbody b.
  assert (EB : R64 b = 195075 * IZR wh - 195075 / 2 * IZR A) by (rewrite E2, mult_IZR, minus_IZR, mult_IZR; lra).
  rewrite opp_IZR, !mult_IZR in Bx. rewrite mult_IZR in Em.
  destruct (fadd_R x b Fx F2) as [F3 E3]; [apply small_bp, Rabs_le; lra|].
  assert (B3 : 195075 * IZR wh - 195079 / 2 * IZR A <= R64 (fadd x b) <= 195075 * IZR wh - 96005 / 2 * IZR A).
  { rewrite E3. split.
    - replace (195075 * IZR wh - 195079 / 2 * IZR A) with (IZR (390150 * wh - 195079 * A) / 2) by (rewrite minus_IZR, !mult_IZR; lra).
      rewrite <- rnd_half by lia. apply rnd_le. rewrite minus_IZR, !mult_IZR. lra.
    - replace (195075 * IZR wh - 96005 / 2 * IZR A) with (IZR (390150 * wh - 96005 * A) / 2) by (rewrite minus_IZR, !mult_IZR; lra).
      rewrite <- (rnd_half (390150 * wh - 96005 * A)) by lia. apply rnd_le. rewrite minus_IZR, !mult_IZR. lra. }
  set (X := fadd x b) in *. clearbody X. clear E3 EB E2 E5 F5 E1 F1 Ew Fw Bx Fx Ey Fy F2.
  assert (Dm : R64 X / R64 m * R64 m = R64 X) by (unfold Rdiv; rewrite Rmult_assoc, Rinv_l; lra).
  rewrite mult_IZR. set (c := IZR A / (2 * IZR wh)).
  assert (Dc : c * (2 * IZR wh) = IZR A) by (unfold c, Rdiv; rewrite Rmult_assoc, Rinv_l; lra). clearbody c.
  assert (C0 : 0 <= c) by (apply Rmult_le_reg_r with (2 * IZR wh); lra). assert (C1 : c <= 1) by (apply Rmult_le_reg_r with (2 * IZR wh); lra).
  assert (Nm : 0 < R64 m) by (rewrite Em; lra).
  assert (Q : 1 - 195079 / 195075 * c <= R64 X / R64 m <= 1 - 96005 / 195075 * c).
  { split; (apply Rmult_le_reg_r with (R64 m); [exact Nm|]); rewrite Dm, Em; nra. }
  destruct (fdiv_R X m F3 Fm) as [F4 E4]; [lra|apply small_bp, Rabs_le; lra|].
  set (q := R64 X / R64 m) in *. clearbody q. 
  pose proof (rnd_err q 1 ltac:(lia)) as R1'. change (bpow radix2 1) with 2 in R1'. specialize (R1' ltac:(apply Rabs_le; lra)). rewrite <- E4 in R1'. apply Rabs_le_inv in R1'.
  assert (T1 : 0 < bpow radix2 (1 - 54) <= / 1099511627776) by (split; [apply bpow_gt_0|]; change (/ 1099511627776) with (bpow radix2 (-40)); apply bpow_le; lia).
  assert (T2 : 0 < bpow radix2 (1 - 54) <= / 1099511627776) by (split; [apply bpow_gt_0|]; change (/ 1099511627776) with (bpow radix2 (-40)); apply bpow_le; lia).
  destruct (fsub_R f1 _ f1_fin F4) as [F5 E5]; [rewrite f1_R; apply small_bp, Rabs_le; lra|]. rewrite f1_R in E5. split; [exact F5|].
  destruct (Z.eq_dec A 0) as [->|NA].
  - assert (c = 0) by nra. subst c. assert (q = 1) by lra. subst q. rewrite E5, E4, (rnd_Z 1) by lia. rewrite Rminus_diag_eq by reflexivity. rewrite rnd_0. lra.
  - assert (CL : / 7372800 <= c). { assert (1 <= IZR A) by (apply IZR_le; lia). apply Rmult_le_reg_r with (2 * IZR wh); [lra|]. rewrite Dc. lra. }
    pose proof (rnd_err (1 - R64 (fdiv X m)) 1 ltac:(lia)) as R2'. change (bpow radix2 1) with 2 in R2'. specialize (R2' ltac:(apply Rabs_le; lra)). rewrite <- E5 in R2'. apply Rabs_le_inv in R2'. lra.
Qed.
