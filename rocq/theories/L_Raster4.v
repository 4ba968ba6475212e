(** Proofs for the rasterisers, part 4: edges (C16, C20). *)
From Coq Require Import ZArith Reals List Bool Lia Lra Permutation Psatz.
From Flocq Require Import Core IEEE754.BinarySingleNaN.
From Verif Require Import GoNum FloatLemmas M_Norm M_Geom S_Geom M_Raster S_Raster L_Raster1 L_Raster2 L_Raster3.
Import ListNotations.
Open Scope Z_scope.

(** The rounded edge from the upper point [a] to the lower point [b] at row [y]. *)
Definition evf (a b : point) (y : Z) : f64 := lin (slope (px a - px b) (py a - py b)) (f64_of_Z (px a)) (y - py a).
Definition Ex (a b : point) (y : Z) : Z := go_int (evf a b y).
Definition evR (a b : point) (y : Z) : R := linR (slope (px a - px b) (py a - py b)) (f64_of_Z (px a)) (y - py a).

Definition pbox (k : Z) (p : point) : Prop := Z.abs (px p) <= 2 ^ k /\ Z.abs (py p) <= 2 ^ k.

(** Exact position. *)
Definition exact (a b : point) (y : Z) : R :=
  (IZR (px a) + IZR (px b - px a) * IZR (y - py a) / IZR (py b - py a))%R.

Lemma pow_le_24 k z : 0 <= k <= 24 -> z <= 2 ^ k -> z <= 2 ^ 24.
Proof. intros H H'. eapply Z.le_trans; [exact H'|]. apply Z.pow_le_mono_r; lia. Qed.

Lemma Ex_R k a b y : 0 <= k <= 24 -> pbox k a -> pbox k b -> py a < py b -> py a <= y <= py b -> Ex a b y = Ztrunc (evR a b y).
Proof.
  intros Hk [A1 A2] [B1 B2] H Hy. apply (pow_le_24 k _ Hk) in A1, A2, B1, B2. unfold Ex, evf, evR. apply go_int_lin.
  - apply okm_slope; lia.
  - apply okb_Z; lia.
  - lia.
Qed.

Local Open Scope R_scope.

Lemma edge_err k a b y : (0 <= k <= 24)%Z -> pbox k a -> pbox k b -> (py a < py b)%Z -> (py a <= y <= py b)%Z ->
  Rabs (evR a b y - exact a b y) <= bpow radix2 (k - 49).
Proof.
  intros Hk HA HB Hab Hy. pose proof HA as [A1 A2]. pose proof HB as [B1 B2].
  pose proof (pow_le_24 k _ Hk A1) as A1'. pose proof (pow_le_24 k _ Hk A2) as A2'.
  pose proof (pow_le_24 k _ Hk B1) as B1'. pose proof (pow_le_24 k _ Hk B2) as B2'.
  unfold evR, linR. destruct (slope_R (px a - px b) (py a - py b)) as [_ ->]; [lia..|].
  rewrite (of_Z_val (px a)) by lia.
  set (dy := IZR (py b - py a)). assert (Hdy : 1 <= dy) by (apply IZR_le; lia).
  set (d := IZR (y - py a)). assert (Hd : 0 <= d <= dy) by (split; apply IZR_le; lia).
  set (dx := IZR (px b - px a)).
  set (q := IZR (px a - px b) / IZR (py a - py b)).
  assert (Hq : q = dx / dy).
  { unfold q, dx, dy. rewrite !minus_IZR. field. rewrite <- !minus_IZR. split; apply IZR_neq; lia. }
  set (u := bpow radix2 (k - 52)). assert (Hu : 0 < u) by apply bpow_gt_0.
  assert (U : forall e : Z, (0 <= e)%Z -> bpow radix2 (k - 52 + e) = u * IZR (2 ^ e)).
  { intros e He. rewrite bpow_plus. unfold u. rewrite (bp e) by exact He. reflexivity. }
  assert (Hdx : Rabs dx <= u * IZR (2 ^ 53)).
  { rewrite <- (U 53%Z) by lia. replace (k - 52 + 53)%Z with (k + 1)%Z by lia. rewrite bp by lia. unfold dx. rewrite <- abs_IZR.
    apply IZR_le. rewrite Z.pow_add_r by lia. lia. }
  assert (Hqd : Rabs (q * d) <= u * IZR (2 ^ 53)).
  { rewrite Hq. replace (dx / dy * d) with (dx * (d / dy)) by (field; lra).
    assert (0 <= d / dy <= 1).
    { split; [apply Rmult_le_pos; [lra|left; apply Rinv_0_lt_compat; lra]|]. apply Rmult_le_reg_r with dy; [lra|].
      unfold Rdiv. rewrite Rmult_assoc, Rinv_l; lra. }
    rewrite Rabs_mult, (Rabs_pos_eq (d / dy)) by lra. pose proof (Rabs_pos dx). nra. }
  assert (Eexact : exact a b y = IZR (px a) + q * d).
  { unfold exact. rewrite Hq. fold dx d dy. field. lra. }
  (* slope *)
  pose proof (rnd_rel q) as Hm. set (m := rnd q) in *.
  assert (tiny : bpow radix2 (-1075) * IZR (2 ^ 25) <= u * / 4).
  { rewrite <- (bp 25) by lia. rewrite <- bpow_plus. replace (/ 4) with (bpow radix2 (-2)) by (cbn; lra).
    unfold u. rewrite <- bpow_plus. apply bpow_le. lia. }
  assert (Hd25 : d <= IZR (2 ^ 25)) by (apply IZR_le; lia).
  assert (Hp : Rabs (m * d - q * d) <= u * (1 + / 4)).
  { replace (m * d - q * d) with ((m - q) * d) by ring. rewrite Rabs_mult, (Rabs_pos_eq d) by lra.
    assert (Rabs (m - q) * d <= (bpow radix2 (-53) * Rabs q + bpow radix2 (-1075)) * d) by (apply Rmult_le_compat_r; lra).
    assert (bpow radix2 (-53) * (Rabs q * d) <= u).
    { replace (Rabs q * d) with (Rabs (q * d)) by (rewrite Rabs_mult, (Rabs_pos_eq d) by lra; reflexivity).
      apply Rle_trans with (bpow radix2 (-53) * (u * IZR (2 ^ 53))).
      - apply Rmult_le_compat_l; [apply bpow_ge_0|exact Hqd].
      - rewrite <- (bp 53) by lia. replace (bpow radix2 (-53) * (u * bpow radix2 53)) with (u * (bpow radix2 (-53) * bpow radix2 53)) by ring.
        rewrite <- bpow_plus. change (bpow radix2 (-53 + 53)) with 1. lra. }
    assert (bpow radix2 (-1075) * d <= u * / 4).
    { eapply Rle_trans; [|exact tiny]. apply Rmult_le_compat_l; [apply bpow_ge_0|exact Hd25]. }
    nra. }
  assert (Hpm : Rabs (m * d) <= bpow radix2 (k + 2)).
  { replace (k + 2)%Z with (k - 52 + 54)%Z by lia. rewrite U by lia. replace (m * d) with ((m * d - q * d) + q * d) by ring.
    eapply Rle_trans; [apply Rabs_triang|]. change (2 ^ 54)%Z with 18014398509481984%Z.
    change (2 ^ 53)%Z with 9007199254740992%Z in Hqd. lra. }
  pose proof (rnd_err (m * d) (k + 2) ltac:(lia) Hpm) as Hr. pose proof (rnd_abs_le (m * d) (k + 2) ltac:(lia) Hpm) as Hrb.
  set (rp := rnd (m * d)) in *.
  assert (Hs : Rabs (rp + IZR (px a)) <= bpow radix2 (k + 3)).
  { eapply Rle_trans; [apply Rabs_triang|]. rewrite <- abs_IZR.
    assert (IZR (Z.abs (px a)) <= bpow radix2 (k + 2)).
    { rewrite bp by lia. apply IZR_le. eapply Z.le_trans; [exact A1|]. apply Z.pow_le_mono_r; lia. }
    replace (k + 3)%Z with (1 + (k + 2))%Z by lia. rewrite bpow_plus. change (bpow radix2 1) with 2. lra. }
  pose proof (rnd_err (rp + IZR (px a)) (k + 3) ltac:(lia) Hs) as Hf.
  replace (k + 2 - 54)%Z with (k - 52)%Z in Hr by lia. replace (k + 3 - 54)%Z with (k - 52 + 1)%Z in Hf by lia.
  rewrite U in Hf by lia. fold u in Hr. change (IZR (2 ^ 1)) with 2 in Hf.
  replace (k - 49)%Z with (k - 52 + 3)%Z by lia. rewrite U by lia. change (IZR (2 ^ 3)) with 8.
  rewrite Eexact. fold m. fold d. fold rp.
  apply Rabs_le. apply Rabs_le_inv in Hp, Hr, Hf. lra.
Qed.

(** Every row of an edge stays between the edge's end points. *)
Lemma edge_range k a b y : (0 <= k <= 24)%Z -> pbox k a -> pbox k b -> (py a < py b)%Z -> (py a <= y < py b)%Z ->
  (Z.min (px a) (px b) <= Ex a b y <= Z.max (px a) (px b))%Z.
Proof.
  intros Hk HA HB Hab Hy. rewrite (Ex_R k) by (auto; lia).
  pose proof HA as [A1 A2]. pose proof HB as [B1 B2].
  pose proof (pow_le_24 k _ Hk A1) as A1'. pose proof (pow_le_24 k _ Hk A2) as A2'.
  pose proof (pow_le_24 k _ Hk B1) as B1'. pose proof (pow_le_24 k _ Hk B2) as B2'.
  assert (G : IZR (Z.min (px a) (px b)) <= evR a b y <= IZR (Z.max (px a) (px b))).
  { destruct (Z.eq_dec y (py a)) as [->|N].
    { unfold evR. rewrite Z.sub_diag, linR_0. rewrite of_Z_val by lia. split; apply IZR_le; lia. }
    destruct (Z.eq_dec (px a) (px b)) as [E|Nx].
    { assert (evR a b y = IZR (px a)) as ->.
      { unfold evR. rewrite E, Z.sub_diag. unfold linR. destruct (slope_R 0 (py a - py b)) as [_ ->]; [lia..|].
        unfold Rdiv. rewrite Rmult_0_l, rnd_0, Rmult_0_l, rnd_0, Rplus_0_l. rewrite of_Z_val by lia. apply rnd_Z. lia. }
      split; apply IZR_le; lia. }
    pose proof (edge_err k a b y Hk HA HB Hab ltac:(lia)) as Herr. apply Rabs_le_inv in Herr.
    assert (Hdy : 1 <= IZR (py b - py a)) by (apply IZR_le; lia).
    set (g := bpow radix2 (- (k + 1))).
    assert (Hg : bpow radix2 (k - 49) <= g) by (apply bpow_le; lia).
    assert (Hgd : g * IZR (py b - py a) <= 1).
    { unfold g. apply Rle_trans with (bpow radix2 (- (k + 1)) * bpow radix2 (k + 1)).
      - apply Rmult_le_compat_l; [apply bpow_ge_0|]. rewrite bp by lia. apply IZR_le. rewrite Z.pow_add_r by lia. lia.
      - rewrite <- bpow_plus. replace (- (k + 1) + (k + 1))%Z with 0%Z by lia. change (bpow radix2 0) with 1. lra. }
    set (D := IZR (py b - py a)) in *.
    assert (Q : exists n : Z, exact a b y = IZR (px a) + IZR n / D /\
       ((px a < px b)%Z -> (1 <= n)%Z /\ (n <= (px b - px a) * (py b - py a) - 1)%Z) /\
       ((px b < px a)%Z -> (n <= -1)%Z /\ ((px b - px a) * (py b - py a) + 1 <= n)%Z)).
    { exists ((px b - px a) * (y - py a))%Z. split; [unfold exact; rewrite mult_IZR; reflexivity|].
      split; intros; split; nia. }
    destruct Q as (n & En & Q1 & Q2).
    assert (HiD : 0 < / D) by (apply Rinv_0_lt_compat; lra).
    assert (gi : g <= / D). { apply Rmult_le_reg_r with D; [lra|]. rewrite Rinv_l by lra. exact Hgd. }
    assert (F : forall x, x / D * D = x) by (intros; field; lra).
    destruct (Z.lt_total (px a) (px b)) as [L|[L|L]]; [| contradiction |].
    - destruct (Q1 L) as [n1 n2]. apply IZR_le in n1, n2. rewrite minus_IZR, mult_IZR in n2. fold D in n2.
      assert (/ D <= IZR n / D) by (unfold Rdiv; nra).
      assert (IZR n / D <= IZR (px b - px a) - / D).
      { replace (IZR (px b - px a) - / D) with ((IZR (px b - px a) * D - 1) * / D) by (field; lra). unfold Rdiv. apply Rmult_le_compat_r; lra. }
      rewrite minus_IZR in H0. rewrite Z.min_l, Z.max_r by lia. lra.
    - destruct (Q2 L) as [n1 n2]. apply IZR_le in n1, n2. rewrite plus_IZR, mult_IZR in n2. fold D in n2.
      assert (IZR n / D <= - / D).
      { replace (- / D) with (-1 * / D) by ring. unfold Rdiv. apply Rmult_le_compat_r; lra. }
      assert (IZR (px b - px a) + / D <= IZR n / D).
      { replace (IZR (px b - px a) + / D) with ((IZR (px b - px a) * D + 1) * / D) by (field; lra). unfold Rdiv. apply Rmult_le_compat_r; lra. }
      rewrite minus_IZR in H0. rewrite Z.min_r, Z.max_l by lia. lra. }
  destruct G as [G1 G2]. apply Ztrunc_le in G1, G2. rewrite Ztrunc_IZR in G1, G2. lia.
Qed.

(** Two edges whose exact positions differ are ordered the same way after rounding. *)
Lemma edge_sep a b c d y : pbox 15 a -> pbox 15 b -> pbox 15 c -> pbox 15 d ->
  (py a < py b)%Z -> (py c < py d)%Z -> (py a <= y <= py b)%Z -> (py c <= y <= py d)%Z ->
  exact a b y < exact c d y -> (Ex a b y <= Ex c d y)%Z.
Proof.
  intros HA HB HC HD Hab Hcd Hy Hy' H. rewrite !(Ex_R 15) by (auto; lia). apply Ztrunc_le.
  pose proof (edge_err 15 a b y ltac:(lia) HA HB Hab ltac:(lia)) as E1. pose proof (edge_err 15 c d y ltac:(lia) HC HD Hcd ltac:(lia)) as E2.
  apply Rabs_le_inv in E1, E2.
  assert (D1 : 1 <= IZR (py b - py a) <= 65536) by (unfold pbox in *; split; apply IZR_le; lia).
  assert (D2 : 1 <= IZR (py d - py c) <= 65536) by (unfold pbox in *; split; apply IZR_le; lia).
  set (n := ((px c - px a) * (py b - py a) * (py d - py c) + (px d - px c) * (y - py c) * (py b - py a) - (px b - px a) * (y - py a) * (py d - py c))%Z).
  assert (En : exact c d y - exact a b y = IZR n / (IZR (py b - py a) * IZR (py d - py c))).
  { assert (Nn : IZR n = (IZR (px c) - IZR (px a)) * IZR (py b - py a) * IZR (py d - py c)
        + IZR (px d - px c) * IZR (y - py c) * IZR (py b - py a) - IZR (px b - px a) * IZR (y - py a) * IZR (py d - py c)).
    { unfold n. rewrite <- !minus_IZR, <- !mult_IZR, <- plus_IZR, <- minus_IZR. reflexivity. }
    rewrite Nn. unfold exact. field. lra. }
  assert (Hn : 1 <= IZR n).
  { apply IZR_le. apply Zlt_le_succ with (n := 0%Z). apply lt_IZR.
    assert (P : 0 < IZR n / (IZR (py b - py a) * IZR (py d - py c))) by lra.
    replace (IZR n) with (IZR n / (IZR (py b - py a) * IZR (py d - py c)) * (IZR (py b - py a) * IZR (py d - py c))) by (field; lra). apply Rmult_lt_0_compat; nra. }
  assert (S : bpow radix2 (-32) <= IZR n / (IZR (py b - py a) * IZR (py d - py c))).
  { apply Rmult_le_reg_r with (IZR (py b - py a) * IZR (py d - py c)); [nra|]. unfold Rdiv. rewrite Rmult_assoc, Rinv_l by nra.
    rewrite Rmult_1_r. eapply Rle_trans; [|exact Hn].
    apply Rle_trans with (bpow radix2 (-32) * (65536 * 65536)).
    - apply Rmult_le_compat_l; [apply bpow_ge_0|nra].
    - replace (65536 * 65536) with (bpow radix2 32) by (rewrite bp by lia; rewrite <- mult_IZR; f_equal). rewrite <- bpow_plus. apply Rle_refl. }
  change (15 - 49)%Z with (-34)%Z in *.
  replace (bpow radix2 (-32)) with (4 * bpow radix2 (-34)) in S.
  2:{ replace 4 with (bpow radix2 2) by (cbn; lra). rewrite <- bpow_plus. reflexivity. }
  pose proof (bpow_gt_0 radix2 (-34)). lra.
Qed.

(** Different slopes stay different, and in order, after rounding. *)
Lemma slope_sep dx dy dx' dy' : (Z.abs dx <= 2 ^ 16)%Z -> (Z.abs dx' <= 2 ^ 16)%Z -> (- 2 ^ 16 <= dy < 0)%Z -> (- 2 ^ 16 <= dy' < 0)%Z ->
  (dx * dy' < dx' * dy)%Z -> R64 (slope dx dy) < R64 (slope dx' dy').
Proof.
  intros Hx Hx' Hy Hy' H. destruct (slope_R dx dy) as [_ ->]; [lia..|]. destruct (slope_R dx' dy') as [_ ->]; [lia..|].
  assert (B : forall u v : Z, (Z.abs u <= 2 ^ 16)%Z -> (- 2 ^ 16 <= v < 0)%Z -> Rabs (rnd (IZR u / IZR v) - IZR u / IZR v) <= bpow radix2 (-38)).
  { intros u v Hu Hv. apply (rnd_err _ 16); [lia|]. rewrite bp by lia. apply quot_bound; lia. }
  pose proof (B _ _ Hx Hy) as B1. pose proof (B _ _ Hx' Hy') as B2. apply Rabs_le_inv in B1, B2.
  assert (D1 : - 65536 <= IZR dy <= -1) by (split; apply IZR_le; lia).
  assert (D2 : - 65536 <= IZR dy' <= -1) by (split; apply IZR_le; lia).
  assert (En : IZR dx' / IZR dy' - IZR dx / IZR dy = IZR (dx' * dy - dx * dy') / (IZR dy * IZR dy')).
  { rewrite minus_IZR, !mult_IZR. field. lra. }
  assert (Hn : 1 <= IZR (dx' * dy - dx * dy')) by (apply IZR_le; lia).
  assert (S : bpow radix2 (-32) <= IZR (dx' * dy - dx * dy') / (IZR dy * IZR dy')).
  { apply Rmult_le_reg_r with (IZR dy * IZR dy'); [nra|]. unfold Rdiv. rewrite Rmult_assoc, Rinv_l by nra.
    rewrite Rmult_1_r. eapply Rle_trans; [|exact Hn].
    apply Rle_trans with (bpow radix2 (-32) * (65536 * 65536)).
    - apply Rmult_le_compat_l; [apply bpow_ge_0|nra].
    - replace (65536 * 65536) with (bpow radix2 32) by (rewrite bp by lia; rewrite <- mult_IZR; f_equal). rewrite <- bpow_plus. apply Rle_refl. }
  replace (bpow radix2 (-32)) with (64 * bpow radix2 (-38)) in S.
  2:{ replace 64 with (bpow radix2 6) by (cbn; lra). rewrite <- bpow_plus. reflexivity. }
  pose proof (bpow_gt_0 radix2 (-38)). lra.
Qed.
Local Close Scope R_scope.
