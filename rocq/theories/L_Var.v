(** Bounds on a triangle's score and on the fitness (C26). *)
From Coq Require Import ZArith Reals List Bool Lia Lra Permutation Psatz.
From Flocq Require Import Core IEEE754.BinarySingleNaN.
From Verif Require Import GoNum FloatLemmas M_Norm S_Norm M_Slice M_Geom S_Geom M_Image S_Image L_Image M_Raster S_Raster L_Raster1
  M_Render L_Render M_Delaunay M_Algo M_Fitness S_Fitness L_Sums.
Import ListNotations.
Open Scope Z_scope.

(** * Squares *)
Section CS.
Context {A : Type}.
Variable f : A -> Z.
Lemma spread a l : 0 <= Z.of_nat (length l) * (a * a) - 2 * a * sum_over f l + sum_over (fun x => f x * f x) l.
Proof.
  induction l as [|x l IH]; cbn [length sum_over fold_right]; [lia|]. fold (sum_over f l) (sum_over (fun x => f x * f x) l).
  rewrite Nat2Z.inj_succ. pose proof (Z.square_nonneg (a - f x)). nia.
Qed.
Lemma cauchy l : sum_over f l * sum_over f l <= Z.of_nat (length l) * sum_over (fun x => f x * f x) l.
Proof.
  induction l as [|x l IH]; cbn [length sum_over fold_right]; [lia|]. fold (sum_over f l) (sum_over (fun x => f x * f x) l).
  rewrite Nat2Z.inj_succ. pose proof (spread (f x) l). nia.
Qed.
End CS.

Lemma sum_over_plus {A} (f g : A -> Z) l : sum_over (fun a => f a + g a) l = sum_over f l + sum_over g l.
Proof. unfold sum_over. induction l as [|a l IH]; cbn [fold_right]; lia. Qed.
Lemma sum_over_le {A} (f g : A -> Z) l : (forall a, In a l -> f a <= g a) -> sum_over f l <= sum_over g l.
Proof.
  intros H. induction l as [|a l IH]; cbn [sum_over fold_right]; [lia|]. fold (sum_over f l) (sum_over g l).
  pose proof (H a (or_introl eq_refl)). assert (sum_over f l <= sum_over g l) by (apply IH; intros b Hb; apply H; right; exact Hb). lia.
Qed.
Lemma sum_over_const {A} c (l : list A) : sum_over (fun _ => c) l = c * Z.of_nat (length l).
Proof. induction l as [|a l IH]; cbn [sum_over fold_right length]; [lia|]. fold (sum_over (fun _ : A => c) l). lia. Qed.

Definition exact_sq (p : pixel) : Z := p_r p * p_r p + p_g p * p_g p + p_b p * p_b p.
Lemma squares_exact im l : let s := pixel_sums im l in
  s_r s * s_r s + s_g s * s_g s + s_b s * s_b s <= s_n s * sum_over (fun p => exact_sq (stored im p)) l.
Proof.
  cbv zeta. cbn [pixel_sums s_n s_r s_g s_b]. unfold exact_sq. rewrite !sum_over_plus, !Z.mul_add_distr_l.
  pose proof (cauchy (fun p => p_r (stored im p)) l). pose proof (cauchy (fun p => p_g (stored im p)) l). pose proof (cauchy (fun p => p_b (stored im p)) l).
  cbv beta in *. lia.
Qed.

(** Images with 8-bit channels. *)
Lemma stored_conforming im d x y : 0 <= g_maxx im -> 0 <= g_maxy im -> conforming im -> to_data im = Some d -> inside (as_idata d) (x, y) ->
  let p := stored (as_idata d) (x, y) in exact_sq p - 1 <= p_sq p <= exact_sq p.
Proof.
  intros Hx Hy Hc Hd [Ix Iy]. cbn [fst snd] in Ix, Iy. cbv zeta.
  destruct (pixels_of_image im Hx Hy Hc) as (d' & t & Ed & Et & HP). rewrite Hd in Ed. injection Ed as <-.
  destruct (to_data_spec im Hx Hy Hc) as (d2 & Ed2 & Ew & Eh & _). rewrite Hd in Ed2. injection Ed2 as <-.
  cbn [as_idata i_w i_h] in Ix, Iy. rewrite Ew in Ix. rewrite Eh in Iy.
  destruct (HP x y Ix Iy) as (p & Ep & Q).
  destruct (from_image_total (as_idata d) (good_to_data im d Hx Hy Hc Hd)) as (t' & Et' & _ & HP' & _). rewrite Et in Et'. injection Et' as <-.
  destruct (HP' x y ltac:(cbn [as_idata i_w]; lia) ltac:(cbn [as_idata i_h]; lia)) as (c & Ec & _ & Ep'). rewrite Ep in Ep'. injection Ep' as ->.
  unfold stored. cbn [fst snd]. rewrite Ec. destruct (g_at im x y) as [[r g] b]. destruct Q as ((Q1 & Q2 & Q3) & Q4).
  cbv zeta in Q4. unfold exact_sq. rewrite Q1, Q2, Q3. destruct Q4 as [-> | ->]; lia.
Qed.

Lemma squares_stored im d l : 0 <= g_maxx im -> 0 <= g_maxy im -> conforming im -> to_data im = Some d -> Forall (inside (as_idata d)) l ->
  let s := pixel_sums (as_idata d) l in
  s_r s * s_r s + s_g s * s_g s + s_b s * s_b s <= s_n s * (s_sq s + s_n s).
Proof.
  intros Hx Hy Hc Hd F. pose proof (squares_exact (as_idata d) l) as H. cbv zeta in *.
  assert (K : sum_over (fun p => exact_sq (stored (as_idata d) p)) l <= s_sq (pixel_sums (as_idata d) l) + s_n (pixel_sums (as_idata d) l)).
  { cbn [pixel_sums s_sq s_n]. replace (Z.of_nat (length l)) with (sum_over (fun _ : Z * Z => 1) l) by (rewrite sum_over_const; lia).
    rewrite <- sum_over_plus. apply sum_over_le. intros [x y] Hp. rewrite Forall_forall in F.
    pose proof (stored_conforming im d x y Hx Hy Hc Hd (F _ Hp)). cbv zeta in *. lia. }
  assert (0 <= s_n (pixel_sums (as_idata d) l)) by (cbn [pixel_sums s_n]; lia). eapply Z.le_trans; [exact H|]. apply Z.mul_le_mono_nonneg_l; assumption.
Qed.

(** * The floating-point score *)
Local Open Scope R_scope.
Lemma of_Z_big z : (Z.abs z <= 2 ^ 64)%Z -> fin (f64_of_Z z) /\ R64 (f64_of_Z z) = rnd (IZR z).
Proof.
  intros H. unfold f64_of_Z. pose proof (f64_dy_R z 0) as K. change (bpow radix2 0) with 1 in K. rewrite Rmult_1_r in K. apply K.
  rewrite <- abs_IZR. apply IZR_le in H. eapply Rle_trans; [exact H|]. change (IZR (2 ^ 64)) with (bpow radix2 64). apply bpow_le. lia.
Qed.
Lemma i64_range z : (- 2 ^ 63 <= i64 z < 2 ^ 63)%Z.
Proof. unfold i64, wraps. change (2 ^ (64 - 1))%Z with (2 ^ 63)%Z. pose proof (Z.mod_pos_bound (z + 2 ^ 63) (2 ^ 64) ltac:(lia)). lia. Qed.

Definition i64_sums (s : sums) : Prop := (- 2 ^ 63 <= s_sq s < 2 ^ 63)%Z /\ (- 2 ^ 63 <= s_n s < 2 ^ 63)%Z.
Lemma diff_finite s : i64_sums s -> fin (diff_of s) /\ Rabs (R64 (diff_of s)) <= bpow radix2 65.
Proof.
  intros [H1 H2]. unfold diff_of. destruct (Z.eqb_spec (s_n s) 0) as [E|E].
  { split; [reflexivity|]. rewrite f0_R, Rabs_R0. apply bpow_ge_0. }
  set (S := i64 (_ + _)). assert (HS : (Z.abs S <= 2 ^ 63)%Z) by (pose proof (i64_range (i64 (i64 (s_r s * s_r s) + i64 (s_g s * s_g s)) + i64 (s_b s * s_b s))); unfold S; lia).
  clearbody S. destruct (of_Z_big (s_sq s) ltac:(lia)) as [F1 R1']. destruct (of_Z_big S ltac:(lia)) as [F2 R2']. destruct (of_Z_big (s_n s) ltac:(lia)) as [F3 R3].
  assert (A1 : Rabs (rnd (IZR (s_sq s))) <= bpow radix2 63) by (apply rnd_abs_le; [lia|]; rewrite <- abs_IZR; change (bpow radix2 63) with (IZR (2 ^ 63)); apply IZR_le; lia).
  assert (A2 : Rabs (rnd (IZR S)) <= bpow radix2 63) by (apply rnd_abs_le; [lia|]; rewrite <- abs_IZR; change (bpow radix2 63) with (IZR (2 ^ 63)); apply IZR_le; lia).
  assert (A3 : 1 <= Rabs (rnd (IZR (s_n s)))).
  { destruct (Z.lt_ge_cases 0 (s_n s)).
    - assert (1 <= rnd (IZR (s_n s))) by (rewrite <- (rnd_Z 1) by lia; apply rnd_le, IZR_le; lia). rewrite Rabs_right; lra.
    - assert (rnd (IZR (s_n s)) <= -1) by (rewrite <- (rnd_Z (-1)) by lia; apply rnd_le, IZR_le; lia). rewrite Rabs_left; lra. }
  assert (A4 : Rabs (R64 (f64_of_Z S) / R64 (f64_of_Z (s_n s))) <= bpow radix2 63).
  { rewrite R2', R3. unfold Rdiv. rewrite Rabs_mult. assert (N : rnd (IZR (s_n s)) <> 0) by (intros N; rewrite N, Rabs_R0 in A3; lra).
    rewrite Rabs_inv. apply Rle_trans with (Rabs (rnd (IZR S)) * 1); [|lra]. apply Rmult_le_compat_l; [apply Rabs_pos|].
    rewrite <- Rinv_1. apply Rinv_le; lra. }
  assert (B1 : bpow radix2 63 <= bpow radix2 1023) by (apply bpow_le; lia).
  assert (N3 : R64 (f64_of_Z (s_n s)) <> 0) by (rewrite R3; intros N; rewrite N, Rabs_R0 in A3; lra).
  destruct (fdiv_R _ _ F2 F3 N3 ltac:(lra)) as [F4 R4].
  assert (A5 : Rabs (R64 (fdiv (f64_of_Z S) (f64_of_Z (s_n s)))) <= bpow radix2 63) by (rewrite R4; apply rnd_abs_le; [lia|exact A4]).
  assert (B2 : bpow radix2 65 = 4 * bpow radix2 63) by (change 65%Z with (2 + 63)%Z; rewrite bpow_plus; reflexivity).
  assert (B0 : 0 < bpow radix2 63) by apply bpow_gt_0.
  assert (A6 : Rabs (R64 (f64_of_Z (s_sq s)) - R64 (fdiv (f64_of_Z S) (f64_of_Z (s_n s)))) <= bpow radix2 65).
  { rewrite R1'. unfold Rminus. eapply Rle_trans; [apply Rabs_triang|]. rewrite Rabs_Ropp. lra. }
  destruct (fsub_R _ _ F1 F4) as [F5 R5]; [eapply Rle_trans; [exact A6|apply bpow_le; lia]|].
  split; [exact F5|]. rewrite R5. apply rnd_abs_le; [lia|exact A6].
Qed.

Lemma diff_lower s : (0 < s_n s <= 6876000)%Z -> (0 <= s_r s <= 255 * s_n s)%Z -> (0 <= s_g s <= 255 * s_n s)%Z -> (0 <= s_b s <= 255 * s_n s)%Z ->
  (0 <= s_sq s <= 195075 * s_n s)%Z -> (s_r s * s_r s + s_g s * s_g s + s_b s * s_b s <= s_n s * (s_sq s + s_n s))%Z ->
  fin (diff_of s) /\ IZR (- (s_n s + 1)) <= R64 (diff_of s) <= IZR (s_sq s).
Proof.
  intros Hn Hr Hg Hb Hq Hs.
  destruct (diff_finite s) as [Ff _]; [split; lia|]. split; [exact Ff|].
  unfold diff_of in *. destruct (Z.eqb_spec (s_n s) 0) as [E|E]; [lia|].
  assert (Q1 : (0 <= s_r s * s_r s <= 65025 * (s_n s * s_n s))%Z) by nia.
  assert (Q2 : (0 <= s_g s * s_g s <= 65025 * (s_n s * s_n s))%Z) by nia.
  assert (Q3 : (0 <= s_b s * s_b s <= 65025 * (s_n s * s_n s))%Z) by nia.
  assert (Q4 : (0 <= s_n s * s_n s <= 47279376000000)%Z) by nia.
  revert Ff. rewrite (i64_small (s_r s * s_r s)), (i64_small (s_g s * s_g s)), (i64_small (s_b s * s_b s)) by lia.
  rewrite (i64_small (_ + s_g s * s_g s)) by lia. rewrite (i64_small (_ + s_b s * s_b s)) by lia. intros Ff.
  set (S := (s_r s * s_r s + s_g s * s_g s + s_b s * s_b s)%Z) in *.
  assert (HS : (0 <= S < 2 ^ 63)%Z) by (unfold S; lia). clearbody S.
  destruct (of_Z_R (s_sq s) ltac:(lia)) as [F1 E1]. destruct (of_Z_big S ltac:(lia)) as [F2 E2]. destruct (of_Z_R (s_n s) ltac:(lia)) as [F3 E3].
  assert (Pn : 1 <= IZR (s_n s)) by (apply IZR_le; lia).
  assert (PS : 0 <= rnd (IZR S)) by (rewrite <- rnd_0; apply rnd_le, IZR_le; lia).
  assert (TS : rnd (IZR S) <= IZR (s_n s) * IZR (s_sq s + s_n s + 1)).
  { pose proof (rnd_rel (IZR S)) as RR. apply Rabs_le_inv in RR. rewrite (Rabs_right (IZR S)) in RR by (apply Rle_ge, IZR_le; lia).
    assert (US : IZR S <= IZR (s_n s) * IZR (s_sq s + s_n s)) by (rewrite <- mult_IZR; apply IZR_le; lia).
    assert (UQ : IZR S <= bpow radix2 63) by (change (bpow radix2 63) with (IZR (2 ^ 63)); apply IZR_le; lia).
    assert (U2 : IZR (s_sq s + s_n s) <= IZR (2 ^ 42)) by (apply IZR_le; lia).
    assert (U3 : bpow radix2 (-53) * IZR (2 ^ 42) = / 2048).
    { change (IZR (2 ^ 42)) with (bpow radix2 42). rewrite <- bpow_plus. reflexivity. }
    assert (U4 : bpow radix2 (-1075) <= / 2) by (change (/ 2) with (bpow radix2 (-1)); apply bpow_le; lia).
    assert (U5 : 0 < bpow radix2 (-53)) by apply bpow_gt_0.
    rewrite (plus_IZR (s_sq s + s_n s)). 
    assert (bpow radix2 (-53) * IZR S <= bpow radix2 (-53) * (IZR (s_n s) * IZR (2 ^ 42))) by (apply Rmult_le_compat_l; [lra|]; nra).
    assert (bpow radix2 (-53) * (IZR (s_n s) * IZR (2 ^ 42)) = IZR (s_n s) * / 2048) by (rewrite <- U3; ring).
    nra. }
  assert (D0 : 0 <= rnd (IZR S) / IZR (s_n s)) by (apply Rmult_le_pos; [exact PS|]; apply Rlt_le, Rinv_0_lt_compat; lra).
  assert (D1 : rnd (IZR S) / IZR (s_n s) <= IZR (s_sq s + s_n s + 1)).
  { apply Rmult_le_reg_r with (IZR (s_n s)); [lra|]. unfold Rdiv. rewrite Rmult_assoc, Rinv_l by lra. lra. }
  assert (D2 : IZR (s_sq s + s_n s + 1) <= IZR (2 ^ 53)) by (apply IZR_le; lia).
  assert (D3 : IZR (2 ^ 53) <= bpow radix2 1023) by (change (IZR (2 ^ 53)) with (bpow radix2 53); apply bpow_le; lia).
  destruct (fdiv_R (f64_of_Z S) (f64_of_Z (s_n s)) F2 F3) as [F4 E4]; [rewrite E3; lra|rewrite E2, E3, Rabs_right; lra|].
  rewrite E2, E3 in E4.
  assert (V1 : 0 <= rnd (rnd (IZR S) / IZR (s_n s))) by (rewrite <- rnd_0 at 1; apply rnd_le, D0).
  assert (V2 : rnd (rnd (IZR S) / IZR (s_n s)) <= IZR (s_sq s + s_n s + 1)) by (rewrite <- (rnd_Z (s_sq s + s_n s + 1)) by lia; apply rnd_le, D1).
  assert (PQ : 0 <= IZR (s_sq s) <= IZR (2 ^ 53)) by (split; apply IZR_le; lia).
  destruct (fsub_R (f64_of_Z (s_sq s)) _ F1 F4) as [_ E5]; [rewrite E1, E4; apply Rabs_le; lra|].
  rewrite E5, E1, E4. split.
  - rewrite <- (rnd_Z (- (s_n s + 1))) by lia. apply rnd_le. rewrite opp_IZR. rewrite <- Z.add_assoc, plus_IZR in V2. lra.
  - rewrite <- (rnd_Z (s_sq s)) at 2 by lia. apply rnd_le. lra.
Qed.

(** * The fitness is a number *)
Lemma on_event_i64 im s e s' : i64_sums s -> on_event im s e = Some s' -> i64_sums s'.
Proof.
  intros H. assert (K : forall l s s' row, i64_sums s -> foldM (fun s x => match znth row x with None => None | Some p => Some (add_px s p) end) l s = Some s' -> i64_sums s').
  { induction l as [|x l IH]; intros s0 s1 row H0; cbn [foldM]; [intros [= <-]; exact H0|]. destruct (znth row x) as [p|]; [|discriminate].
    apply IH. destruct H0 as [_ Hn]. split; cbn [add_px s_sq s_n]; [apply i64_range|exact Hn]. }
  assert (N : forall s k, i64_sums s -> i64_sums (add_n s k)) by (intros s0 k [A B]; split; cbn [add_n s_sq s_n]; [exact A|apply i64_range]).
  assert (P : forall s p, i64_sums s -> i64_sums (add_px s p)) by (intros s0 p [A B]; split; cbn [add_px s_sq s_n]; [apply i64_range|exact B]).
  destruct e as [x0 x1 y|x y]; cbn [on_event].
  - destruct (znth (fi_px im) y) as [row|]; [|discriminate]. destruct (_ && _).
    + destruct (foldM _ _ _) as [s1|] eqn:E; [|discriminate]. intros [= <-]. apply N, (K _ _ _ _ H E).
    + intros [= <-]. apply N, H.
  - destruct (znth (fi_pxn im) y) as [row|]; [|discriminate]. destruct (znth row x) as [p|]; [|discriminate]. intros [= <-]. apply N, P, H.
Qed.
Lemma tri_diff_finite im a b c v : tri_diff im a b c = Some v -> fin v /\ Rabs (R64 v) <= bpow radix2 65.
Proof.
  unfold tri_diff. destruct (dda_blocks _ _ _) as [ev|]; [|discriminate]. destruct (foldM (on_event im) ev sums0) as [s|] eqn:E; [|discriminate].
  intros [= <-]. apply diff_finite.
  enough (K : forall ev s s', i64_sums s -> foldM (on_event im) ev s = Some s' -> i64_sums s') by (apply (K ev sums0 s); [split; cbn; lia|exact E]).
  clear. induction ev as [|e ev IH]; intros s s' H; cbn [foldM]; [intros [= <-]; exact H|].
  destruct (on_event im s e) as [s1|] eqn:E; [|discriminate]. apply IH, (on_event_i64 im s e s1 H E).
Qed.
Lemma i16_range z : (- 2 ^ 15 <= i16 z < 2 ^ 15)%Z.
Proof. unfold i16, wraps. change (2 ^ (16 - 1))%Z with (2 ^ 15)%Z. pose proof (Z.mod_pos_bound (z + 2 ^ 15) (2 ^ 16) ltac:(lia)). lia. Qed.
Lemma fabs_R x : fin x -> fin (fabs x) /\ R64 (fabs x) = Rabs (R64 x).
Proof. intros H. unfold fabs, fin, R64 in *. split; [rewrite is_finite_Babs; exact H|apply B2R_Babs]. Qed.

Lemma tri_area_finite a b c : fin (tri_area a b c) /\ Rabs (R64 (tri_area a b c)) <= bpow radix2 31.
Proof.
  unfold tri_area. cbv zeta.
  assert (P : forall z w, exists k, fin (fmul (f64_of_Z (i16 z)) (f64_of_Z (i16 w))) /\ R64 (fmul (f64_of_Z (i16 z)) (f64_of_Z (i16 w))) = IZR k /\ (Z.abs k <= 2 ^ 30)%Z).
  { intros z w. pose proof (i16_range z) as Hz. pose proof (i16_range w) as Hw. exists (i16 z * i16 w)%Z.
    destruct (of_Z_R (i16 z) ltac:(lia)) as [F1 E1]. destruct (of_Z_R (i16 w) ltac:(lia)) as [F2 E2].
    assert (B : (Z.abs (i16 z * i16 w) <= 2 ^ 30)%Z) by nia.
    destruct (fmul_R _ _ F1 F2) as [F3 E3].
    - rewrite E1, E2, <- mult_IZR, <- abs_IZR. apply Rle_trans with (IZR (2 ^ 30)); [apply IZR_le; exact B|]. change (IZR (2 ^ 30)) with (bpow radix2 30). apply bpow_le. lia.
    - split; [exact F3|]. split; [|exact B]. rewrite E3, E1, E2, <- mult_IZR. apply rnd_Z. lia. }
  destruct (P (px b - px a)%Z (py c - py a)%Z) as (k1 & F1 & E1 & B1). destruct (P (px c - px a)%Z (py b - py a)%Z) as (k2 & F2 & E2 & B2).
  destruct (fsub_R _ _ F1 F2) as [F3 E3].
  { rewrite E1, E2, <- minus_IZR, <- abs_IZR. apply Rle_trans with (IZR (2 ^ 31)); [apply IZR_le; lia|]. change (IZR (2 ^ 31)) with (bpow radix2 31). apply bpow_le. lia. }
  rewrite E1, E2, <- minus_IZR, rnd_Z in E3 by lia.
  assert (B3 : Rabs (R64 fhalf * IZR (k1 - k2)) <= bpow radix2 30).
  { rewrite fhalf_R, Rabs_mult, <- abs_IZR. rewrite Rabs_right by lra. change (bpow radix2 30) with (IZR (2 ^ 30)).
    assert (H : IZR (Z.abs (k1 - k2)) <= IZR (2 ^ 31)) by (apply IZR_le; lia). replace (IZR (2 ^ 31)) with (2 * IZR (2 ^ 30)) in H by (rewrite <- mult_IZR; reflexivity). clear - H. lra. }
  destruct (fmul_R fhalf _ fhalf_fin F3) as [F4 E4].
  { rewrite E3. eapply Rle_trans; [exact B3|apply bpow_le; lia]. }
  destruct (fabs_R _ F4) as [F5 E5]. split; [exact F5|]. rewrite E5, Rabs_Rabsolu, E4, E3. eapply Rle_trans; [apply (rnd_abs_le _ 30); [lia|exact B3]|apply bpow_le; lia].
Qed.

Lemma acc_step k e x v : (0 <= k < 2 ^ 52)%Z -> (0 <= e <= 900)%Z -> fin x -> fin v -> Rabs (R64 x) <= IZR k * bpow radix2 e -> Rabs (R64 v) <= bpow radix2 e ->
  fin (fadd x v) /\ Rabs (R64 (fadd x v)) <= IZR (k + 1) * bpow radix2 e.
Proof.
  intros Hk He Fx Fv Bx Bv. assert (P : 0 < bpow radix2 e) by apply bpow_gt_0.
  assert (B : Rabs (R64 x + R64 v) <= IZR (k + 1) * bpow radix2 e) by (eapply Rle_trans; [apply Rabs_triang|]; rewrite plus_IZR; lra).
  assert (T : IZR (k + 1) * bpow radix2 e <= bpow radix2 1023).
  { apply Rle_trans with (bpow radix2 53 * bpow radix2 e); [|rewrite <- bpow_plus; apply bpow_le; lia].
    apply Rmult_le_compat_r; [lra|]. change (bpow radix2 53) with (IZR (2 ^ 53)). apply IZR_le. lia. }
  destruct (fadd_R x v Fx Fv ltac:(lra)) as [F E]. split; [exact F|]. rewrite E.
  assert (D : rnd (IZR (k + 1) * bpow radix2 e) = IZR (k + 1) * bpow radix2 e) by (apply rnd_dy; lia).
  apply Rabs_le_inv in B. apply Rabs_le. split.
  - rewrite <- D. rewrite <- rnd_opp. apply rnd_le. lra.
  - rewrite <- D. apply rnd_le. lra.
Qed.

Lemma plain_sums_finite im ts diff area : (Z.of_nat (length ts) < 2 ^ 52)%Z -> plain_sums im ts = Some (diff, area) ->
  let k := Z.of_nat (length ts) in fin diff /\ Rabs (R64 diff) <= IZR k * bpow radix2 65 /\ fin area /\ Rabs (R64 area) <= IZR k * bpow radix2 31.
Proof.
  intros Hl. cbv zeta. unfold plain_sums.
  enough (K : forall ts k x y x' y', (0 <= k)%Z -> (k + Z.of_nat (length ts) < 2 ^ 52)%Z -> fin x -> fin y -> Rabs (R64 x) <= IZR k * bpow radix2 65 -> Rabs (R64 y) <= IZR k * bpow radix2 31 ->
    foldM (fun (da : f64 * f64) t => match tri_diff im (d_a t) (d_b t) (d_c t) with None => None
      | Some v => Some (fadd (fst da) v, fadd (snd da) (tri_area (d_a t) (d_b t) (d_c t))) end) ts (x, y) = Some (x', y') ->
    fin x' /\ Rabs (R64 x') <= IZR (k + Z.of_nat (length ts)) * bpow radix2 65 /\ fin y' /\ Rabs (R64 y') <= IZR (k + Z.of_nat (length ts)) * bpow radix2 31).
  { intros H. apply (K ts 0%Z f0 f0 diff area); try lia; try reflexivity; try exact H; rewrite f0_R, Rabs_R0, Rmult_0_l; lra. }
  clear. induction ts as [|t ts IH]; intros k x y x' y' Hk Hl Fx Fy Bx By; cbn [foldM].
  - intros [= <- <-]. cbn [length]. rewrite Z.add_0_r. auto.
  - destruct (tri_diff im (d_a t) (d_b t) (d_c t)) as [v|] eqn:Ev; [|discriminate]. cbn [fst snd]. intros H.
    cbn [length] in *. rewrite Nat2Z.inj_succ in *. destruct (tri_diff_finite im _ _ _ v Ev) as [Fv Bv]. destruct (tri_area_finite (d_a t) (d_b t) (d_c t)) as [Fa Ba].
    destruct (acc_step k 65 x v ltac:(lia) ltac:(lia) Fx Fv Bx Bv) as [F1 B1]. destruct (acc_step k 31 y _ ltac:(lia) ltac:(lia) Fy Fa By Ba) as [F2 B2].
    specialize (IH (k + 1)%Z _ _ x' y' ltac:(lia) ltac:(lia) F1 F2 B1 B2 H). replace (k + Z.succ (Z.of_nat (length ts)))%Z with (k + 1 + Z.of_nat (length ts))%Z by lia. exact IH.
Qed.

Lemma plain_fitness_finite im d f : (Z.of_nat (length (iter_triangles d)) < 2 ^ 52)%Z -> fin (fi_max im) -> 1 <= Rabs (R64 (fi_max im)) -> plain_fitness im d = Some f -> fin f.
Proof.
  intros Hl Fm Bm. unfold plain_fitness. destruct (plain_sums im (iter_triangles d)) as [[diff area]|] eqn:E; [|discriminate]. intros [= <-].
  destruct (plain_sums_finite im _ diff area Hl E) as (F1 & B1 & F2 & B2). set (k := Z.of_nat (length (iter_triangles d))) in *.
  assert (Kk : IZR k <= bpow radix2 52) by (change (bpow radix2 52) with (IZR (2 ^ 52)); apply IZR_le; lia).
  assert (K0 : 0 <= IZR k) by (apply IZR_le; lia).
  assert (C1 : Rabs (R64 diff) <= bpow radix2 117).
  { eapply Rle_trans; [exact B1|]. change 117%Z with (52 + 65)%Z. rewrite bpow_plus. apply Rmult_le_compat_r; [apply bpow_ge_0|exact Kk]. }
  assert (C2 : Rabs (R64 area) <= bpow radix2 83).
  { eapply Rle_trans; [exact B2|]. change 83%Z with (52 + 31)%Z. rewrite bpow_plus. apply Rmult_le_compat_r; [apply bpow_ge_0|exact Kk]. }
  set (wh := i64 (fi_w im * fi_h im)). assert (Hwh : (Z.abs wh <= 2 ^ 64)%Z) by (unfold wh; pose proof (i64_range (fi_w im * fi_h im)); lia). clearbody wh.
  destruct (of_Z_big wh Hwh) as [F3 E3]. assert (C3 : Rabs (R64 (f64_of_Z wh)) <= bpow radix2 64).
  { rewrite E3. apply rnd_abs_le; [lia|]. rewrite <- abs_IZR. change (bpow radix2 64) with (IZR (2 ^ 64)). apply IZR_le. lia. }
  assert (bp : forall a b, (a <= b)%Z -> bpow radix2 a <= bpow radix2 b) by (intros; apply bpow_le; lia).
  assert (dbl : forall a, bpow radix2 (a + 1) = 2 * bpow radix2 a) by (intros a; rewrite bpow_plus; change (bpow radix2 1) with 2; ring).
  assert (pos : forall a, 0 < bpow radix2 a) by (intros; apply bpow_gt_0).
  destruct (fsub_R _ _ F3 F2) as [F4 E4].
  { unfold Rminus. eapply Rle_trans; [apply Rabs_triang|]. rewrite Rabs_Ropp. pose proof (bp 64%Z 83%Z ltac:(lia)). pose proof (dbl 83%Z). pose proof (bp 84%Z 1023%Z ltac:(lia)). change (83 + 1)%Z with 84%Z in *. lra. }
  assert (C4 : Rabs (R64 (fsub (f64_of_Z wh) area)) <= bpow radix2 84).
  { rewrite E4. apply rnd_abs_le; [lia|]. unfold Rminus. eapply Rle_trans; [apply Rabs_triang|]. rewrite Rabs_Ropp. pose proof (bp 64%Z 83%Z ltac:(lia)). pose proof (dbl 83%Z). change (83 + 1)%Z with 84%Z in *. lra. }
  destruct (of_Z_R max_pixel_difference ltac:(unfold max_pixel_difference; lia)) as [F5 E5].
  assert (C5 : Rabs (R64 (f64_of_Z max_pixel_difference) * R64 (fsub (f64_of_Z wh) area)) <= bpow radix2 102).
  { rewrite E5, Rabs_mult. change 102%Z with (18 + 84)%Z. rewrite bpow_plus. apply Rmult_le_compat; [apply Rabs_pos|apply Rabs_pos| |exact C4].
    rewrite <- abs_IZR. change (bpow radix2 18) with (IZR (2 ^ 18)). apply IZR_le. unfold max_pixel_difference. lia. }
  destruct (fmul_R _ _ F5 F4) as [F6 E6]; [pose proof (bp 102%Z 1023%Z ltac:(lia)); lra|].
  assert (C6 : Rabs (R64 (fmul (f64_of_Z max_pixel_difference) (fsub (f64_of_Z wh) area))) <= bpow radix2 102) by (rewrite E6; apply rnd_abs_le; [lia|exact C5]).
  assert (C7' : Rabs (R64 diff + R64 (fmul (f64_of_Z max_pixel_difference) (fsub (f64_of_Z wh) area))) <= bpow radix2 118).
  { eapply Rle_trans; [apply Rabs_triang|]. pose proof (bp 102%Z 117%Z ltac:(lia)). pose proof (dbl 117%Z). change (117 + 1)%Z with 118%Z in *. lra. }
  destruct (fadd_R _ _ F1 F6) as [F7 E7]; [pose proof (bp 118%Z 1023%Z ltac:(lia)); lra|].
  assert (C7 : Rabs (R64 (fadd diff (fmul (f64_of_Z max_pixel_difference) (fsub (f64_of_Z wh) area)))) <= bpow radix2 118) by (rewrite E7; apply rnd_abs_le; [lia|exact C7']).
  assert (Nm : R64 (fi_max im) <> 0) by (intros N; rewrite N, Rabs_R0 in Bm; lra).
  set (X := fadd diff _) in *. 
  assert (C8' : Rabs (R64 X / R64 (fi_max im)) <= bpow radix2 118).
  { unfold Rdiv. rewrite Rabs_mult. rewrite Rabs_inv. apply Rle_trans with (Rabs (R64 X) * 1); [|lra]. apply Rmult_le_compat_l; [apply Rabs_pos|].
    rewrite <- Rinv_1. apply Rinv_le; lra. }
  destruct (fdiv_R X (fi_max im) F7 Fm Nm) as [F8 E8]; [pose proof (bp 118%Z 1023%Z ltac:(lia)); lra|].
  assert (C8 : Rabs (R64 (fdiv X (fi_max im))) <= bpow radix2 118) by (rewrite E8; apply rnd_abs_le; [lia|exact C8']).
  apply (fsub_R f1 _ f1_fin F8). rewrite f1_R. unfold Rminus. eapply Rle_trans; [apply Rabs_triang|]. rewrite Rabs_Ropp, Rabs_R1.
  pose proof (bp 0%Z 118%Z ltac:(lia)) as Z0. change (bpow radix2 0) with 1 in Z0. pose proof (dbl 118%Z). pose proof (bp 119%Z 1023%Z ltac:(lia)). change (118 + 1)%Z with 119%Z in *. lra.
Qed.
