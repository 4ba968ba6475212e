(** The grid look-ups are complete for images of at most 1920 x 1920 pixels. *)
From Coq Require Import ZArith Reals List Bool Lia Lra Psatz.
From Flocq Require Import Core IEEE754.BinarySingleNaN.
From Verif Require Import GoNum FloatLemmas L_F32 M_Norm M_Slice M_Geom S_Geom M_Image M_Raster S_Raster M_Delaunay S_Delaunay
  L_Raster1 L_Raster6 L_PMap L_GMap L_Super L_Slots L_Slots2 L_Plane L_BW L_Toggle L_Count L_Insert L_Circle L_Hist.
Import ListNotations.
Open Scope R_scope.

(* ---------------------------------------------------------------- *)
(** * Where the centre of an empty circle around an image point lies *)

(** o is the centre relative to the point; (a, b) is the point relative to the middle. *)
Section Centre.
  Context (m a b ox oy : R).
  Hypothesis (Hm : 2 <= m <= 1920) (Ha : - (m + 1) <= 2 * a <= m + 1) (Hb : - (m + 1) <= 2 * b <= m + 1).
  Hypothesis (HA : 2 * ((- 2 * m - a) * ox + (- m - b) * oy) <= (- 2 * m - a) * (- 2 * m - a) + (- m - b) * (- m - b)).
  Hypothesis (HC : 2 * ((2 * m - a) * ox + (- m - b) * oy) <= (2 * m - a) * (2 * m - a) + (- m - b) * (- m - b)).
  Hypothesis (HB : 2 * (- a * ox + (2 * m - b) * oy) <= a * a + (2 * m - b) * (2 * m - b)).

  Lemma centre_low : - oy <= 8180.
  Proof.
    set (s := m + b).
    assert (S1 : (m - 1) / 2 <= s <= 2 * m) by (unfold s; lra).
    assert (E : 2 * s * (- oy) * (4 * m) <= (4 * m * m - a * a + s * s) * (4 * m)).
    { assert (P1 : 0 <= 2 * m - a) by lra. assert (P2 : 0 <= 2 * m + a) by lra.
      pose proof (Rmult_le_compat_l _ _ _ P1 HA). pose proof (Rmult_le_compat_l _ _ _ P2 HC). unfold s. nra. }
    assert (E2 : 2 * s * (- oy) <= 4 * m * m - a * a + s * s) by (apply Rmult_le_reg_r with (4 * m); lra).
    assert (Q : s * s - 16360 * s + 4 * m * m <= 0).
    { assert ((s - (m - 1) / 2) * (2 * m - s) >= 0) by nra.
      assert (s * s <= (2.5 * m - 0.5) * s - (m - 1) * m) by nra.
      assert (0 <= (16360 - (2.5 * m - 0.5)) * (s - (m - 1) / 2)) by (apply Rmult_le_pos; lra).
      assert (0 <= (m - 2) * (1920 - m)) by (apply Rmult_le_pos; lra). lra. }
    assert (0 < s) by lra. apply Rmult_le_reg_l with (2 * s); [lra|]. nra.
  Qed.

  Lemma centre_left : - ox <= 6800.
  Proof.
    assert (P1 : 0 <= 2 * m - b) by lra. assert (P2 : 0 <= m + b) by lra.
    assert (E : (2 * (- ox) * (4 * m - 2 * b + 3 * a)) * m <= ((2 * m - b) * (7 * m + 4 * a + 3 * b) + 3 * (a * a)) * m).
    { pose proof (Rmult_le_compat_l _ _ _ P1 HA). pose proof (Rmult_le_compat_l _ _ _ P2 HB). nra. }
    assert (E2 : 2 * (- ox) * (4 * m - 2 * b + 3 * a) <= (2 * m - b) * (7 * m + 4 * a + 3 * b) + 3 * (a * a)) by (apply Rmult_le_reg_r with m; lra).
    set (k := (m + 1) / 2).
    assert (Q : (2 * m - b) * (7 * m + 4 * a + 3 * b) + 3 * (a * a) <= 2 * 6800 * (4 * m - 2 * b + 3 * a)).
    { assert (F1 : 0 <= (k - b) * (4 * 6800 - m - 4 * a - 3 * (b + k))) by (apply Rmult_le_pos; unfold k; lra).
      assert (F2 : 0 <= (k - a) * (k + a)) by (apply Rmult_le_pos; unfold k; lra).
      assert (F3 : 0 <= (a + k) * (6 * 6800 - 4 * (2 * m - k))) by (apply Rmult_le_pos; unfold k; lra).
      assert (F4 : 0 <= 2 * 6800 * (4 * m - 5 * k) - (2 * m - k) * (7 * m - k) - 3 * (k * k)).
      { unfold k. assert (0 <= (m - 2) * (1920 - m)) by (apply Rmult_le_pos; lra). nra. }
      nra. }
    assert (0 < 4 * m - 2 * b + 3 * a) by lra. apply Rmult_le_reg_l with (2 * (4 * m - 2 * b + 3 * a)); [lra|]. nra.
  Qed.
End Centre.

Section Centre2.
  Context (m a b ox oy : R).
  Hypothesis (Hm : 2 <= m <= 1920) (Ha : - (m + 1) <= 2 * a <= m + 1) (Hb : - (m + 1) <= 2 * b <= m + 1).
  Hypothesis (HA : 2 * ((- 2 * m - a) * ox + (- m - b) * oy) <= (- 2 * m - a) * (- 2 * m - a) + (- m - b) * (- m - b)).
  Hypothesis (HC : 2 * ((2 * m - a) * ox + (- m - b) * oy) <= (2 * m - a) * (2 * m - a) + (- m - b) * (- m - b)).
  Hypothesis (HB : 2 * (- a * ox + (2 * m - b) * oy) <= a * a + (2 * m - b) * (2 * m - b)).

  Lemma centre_bounds : Rabs ox <= 6800 /\ - 8180 <= oy <= 5760.
  Proof.
    assert (L : - ox <= 6800) by (apply (centre_left m a b ox oy); assumption).
    assert (R' : - - ox <= 6800).
    { apply (centre_left m (- a) b (- ox) oy); lra. }
    assert (D : - oy <= 8180) by (apply (centre_low m a b ox oy); assumption).
    split; [apply Rabs_le; lra|]. split; [lra|].
    set (t := 2 * m - b) in *. assert (T : 1.5 * m - 0.5 <= t <= 2.5 * m + 0.5) by (unfold t; lra).
    assert (A1 : a * ox <= (m + 1) / 2 * 6800).
    { destruct (Rle_dec 0 a); [apply Rle_trans with (a * 6800); [apply Rmult_le_compat_l; lra|apply Rmult_le_compat_r; lra]|].
      replace (a * ox) with ((- a) * (- ox)) by ring. apply Rle_trans with ((- a) * 6800); [apply Rmult_le_compat_l; lra|apply Rmult_le_compat_r; lra]. }
    assert (A2 : a * a <= (m + 1) / 2 * ((m + 1) / 2)) by nra.
    apply Rmult_le_reg_l with (2 * t); [lra|].
    apply Rle_trans with (a * a + t * t + 2 * (a * ox)); [lra|].
    assert (0 <= (t - (1.5 * m - 0.5)) * (11520 - (1.5 * m - 0.5) - t)) by (apply Rmult_le_pos; lra).
    assert (0 <= (m - 2) * (1920 - m)) by (apply Rmult_le_pos; lra). lra.
  Qed.

  Lemma radius_bound q2 : 
    q2 <= (- 2 * m - a - ox) * (- 2 * m - a - ox) + (- m - b - oy) * (- m - b - oy) ->
    q2 <= (2 * m - a - ox) * (2 * m - a - ox) + (- m - b - oy) * (- m - b - oy) -> q2 <= 12000 * 12000.
  Proof.
    intros Q1 Q2. destruct centre_bounds as [X [Y1 Y2]]. apply Rabs_le_inv in X.
    assert (SQ : forall u k, - k <= u <= k -> u * u <= k * k) by (intros u k Hu; nra).
    assert (Y : (- m - b - oy) * (- m - b - oy) <= 8700 * 8700) by (apply SQ; lra).
    destruct (Rle_dec ox 0).
    - assert ((- 2 * m - a - ox) * (- 2 * m - a - ox) <= 6900 * 6900) by (apply SQ; lra). lra.
    - assert ((2 * m - a - ox) * (2 * m - a - ox) <= 6900 * 6900) by (apply SQ; lra). lra.
  Qed.

  (** A centre far to the left: the circle is not larger than 8190. *)
  Lemma far_left q2 : 7229 <= - ox - a -> q2 <= (- a - ox) * (- a - ox) + (2 * m - b - oy) * (2 * m - b - oy) -> q2 <= 8190 * 8190.
  Proof.
    intros F Q. destruct centre_bounds as [X _]. apply Rabs_le_inv in X.
    assert (M : 857 <= m) by lra.
    assert (SQ : forall u k, - k <= u <= k -> u * u <= k * k) by (intros u k Hu; nra).
    assert (X2 : (- a - ox) * (- a - ox) <= 7761 * 7761) by (apply SQ; lra).
    set (t := 2 * m - b) in *. assert (T : 1.5 * m - 0.5 <= t <= 2.5 * m + 0.5) by (unfold t; lra).
    assert (U : oy - t <= 2615).
    { assert (A1 : a * ox <= (m + 1) / 2 * 6800).
      { destruct (Rle_dec 0 a); [apply Rle_trans with (a * 6800); [apply Rmult_le_compat_l; lra|apply Rmult_le_compat_r; lra]|].
        replace (a * ox) with ((- a) * (- ox)) by ring. apply Rle_trans with ((- a) * 6800); [apply Rmult_le_compat_l; lra|apply Rmult_le_compat_r; lra]. }
      assert (A2 : a * a <= (m + 1) / 2 * ((m + 1) / 2)) by (apply SQ; lra).
      apply Rmult_le_reg_l with (2 * t); [lra|]. apply Rle_trans with (a * a - t * t + 2 * (a * ox)); [lra|].
      assert (0 <= t * t) by apply Rle_0_sqr. assert (0 <= (m - 857) * (1920 - m)) by (apply Rmult_le_pos; lra). lra. }
    assert (L : - 2615 <= oy - t).
    { set (u := 2 * m + a) in *. set (s := m + b) in *. set (K := 3 * m - 2615).
      assert (Pu : 1.5 * m - 0.5 <= u) by (unfold u; lra). assert (Ps : 0 < s) by (unfold s; lra).
      assert (E1 : 2 * u * (7229 - 2 * m + u) - 2 * s * oy <= u * u + s * s).
      { assert (2 * u * (7229 - 2 * m + u) <= 2 * u * (- ox)) by (apply Rmult_le_compat_l; [lra|unfold u; lra]).
        replace (- 2 * m - a) with (- u) in HA by (unfold u; ring). replace (- m - b) with (- s) in HA by (unfold s; ring). lra. }
      assert (E2 : 0 <= (s - K) * (s - K)) by apply Rle_0_sqr.
      assert (E3 : K * K <= u * u + 2 * u * (7229 - 2 * m)).
      { assert (W1 : (1.5 * m - 0.5) * (1.5 * m - 0.5) <= u * u) by (apply Rmult_le_compat; lra).
        assert (W2 : 2 * (1.5 * m - 0.5) * (7229 - 2 * m) <= 2 * u * (7229 - 2 * m)) by (apply Rmult_le_compat_r; lra).
        assert (0 <= (m - 857) * (1920 - m)) by (apply Rmult_le_pos; lra). unfold K. lra. }
      apply Rmult_le_reg_l with (2 * s); [lra|]. replace t with (3 * m - s) by (unfold t, s; ring). unfold K in *. lra. }
    assert (D2 : (t - oy) * (t - oy) <= 2615 * 2615) by (apply SQ; lra). lra.
  Qed.
End Centre2.

Lemma far_right m a b ox oy q2 : 2 <= m <= 1920 -> - (m + 1) <= 2 * a <= m + 1 -> - (m + 1) <= 2 * b <= m + 1 ->
  2 * ((- 2 * m - a) * ox + (- m - b) * oy) <= (- 2 * m - a) * (- 2 * m - a) + (- m - b) * (- m - b) ->
  2 * ((2 * m - a) * ox + (- m - b) * oy) <= (2 * m - a) * (2 * m - a) + (- m - b) * (- m - b) ->
  2 * (- a * ox + (2 * m - b) * oy) <= a * a + (2 * m - b) * (2 * m - b) ->
  7229 <= ox + a -> q2 <= (- a - ox) * (- a - ox) + (2 * m - b - oy) * (2 * m - b - oy) -> q2 <= 8190 * 8190.
Proof. intros Hm Ha Hb HA HC HB F Q. apply (far_left m (- a) b (- ox) oy); lra. Qed.

(* ---------------------------------------------------------------- *)
(** * Rounding errors of the stored circle *)
Lemma big_127 x : Rabs x <= 1000000 -> Rabs x <= bpow radix2 127.
Proof. intros H. eapply Rle_trans; [exact H|]. apply Rle_trans with (bpow radix2 20); [cbn; lra|apply bpow_le; lia]. Qed.
Lemma big_1023 x : Rabs x <= 1000000000000 -> Rabs x <= bpow radix2 1023.
Proof. intros H. eapply Rle_trans; [exact H|]. apply Rle_trans with (bpow radix2 40); [cbn; lra|apply bpow_le; lia]. Qed.
Ltac rb := match goal with |- Rabs ?x <= _ => apply Rabs_le; lra end.

Lemma err64 x e z : (-1020 <= e)%Z -> bpow radix2 e = IZR z -> - IZR z <= x <= IZR z -> - bpow radix2 (e - 54) <= rnd x - x <= bpow radix2 (e - 54).
Proof. intros He Hz H. apply Rabs_le_inv. apply rnd_err; [exact He|]. rewrite Hz. apply Rabs_le. exact H. Qed.
Lemma err32 x e z : (-120 <= e)%Z -> bpow radix2 e = IZR z -> - IZR z <= x <= IZR z -> - bpow radix2 (e - 25) <= rnd32 x - x <= bpow radix2 (e - 25).
Proof. intros He Hz H. apply Rabs_le_inv. apply rnd32_err; [exact He|]. rewrite Hz. apply Rabs_le. exact H. Qed.

Definition e40 : R := / 1099511627776.   (* 2^-40 *)
Lemma centre_float n g X : (Z.abs n <= 2 ^ 53)%Z -> (Z.abs g <= 2 ^ 53)%Z -> g <> 0%Z -> X = IZR n / IZR g -> - 8190 <= X <= 8750 ->
  fin (fdiv (f64_of_Z n) (f64_of_Z g)) /\ - e40 <= R64 (fdiv (f64_of_Z n) (f64_of_Z g)) - X <= e40.
Proof.
  intros Hn Hg G0 EX BX. destruct (of_Z_R n Hn) as [F1 E1]. destruct (of_Z_R g Hg) as [F2 E2].
  destruct (fdiv_R _ _ F1 F2) as [F E].
  - rewrite E2. apply IZR_neq. exact G0.
  - rewrite E1, E2, <- EX. apply big_1023. rb.
  - split; [exact F|]. rewrite E, E1, E2, <- EX. change e40 with (bpow radix2 (14 - 54)).
    apply (err64 X 14 16384); [lia|reflexivity|lra].
Qed.

Lemma radius_float cx cy ax ay X Y r : fin cx -> fin cy -> (Z.abs ax <= 8000)%Z -> (Z.abs ay <= 8000)%Z ->
  - e40 <= R64 cx - X <= e40 -> - e40 <= R64 cy - Y <= e40 ->
  1 / 2 <= r <= 12000 -> r * r = (X - IZR ax) * (X - IZR ax) + (Y - IZR ay) * (Y - IZR ay) ->
  let dx := fsub cx (f64_of_Z ax) in let dy := fsub cy (f64_of_Z ay) in
  let s := fsqrt (fadd (fmul dx dx) (fmul dy dy)) in
  fin s /\ - / 262144 <= R64 s - r <= / 262144.
Proof.
  intros Fx Fy Hax Hay Ex Ey Hr Er dx dy s.
  destruct (of_Z_R ax ltac:(lia)) as [Fax Eax]. destruct (of_Z_R ay ltac:(lia)) as [Fay Eay].
  assert (SQ : forall u, u * u <= 12000 * 12000 -> - 12000 <= u <= 12000) by (intros u Hu; split; apply Rnot_lt_le; intros L; nra).
  assert (NN : forall u, 0 <= u * u) by (intros u; apply Rle_0_sqr).
  assert (RR : r * r <= 12000 * 12000) by nra.
  assert (Bx : - 12000 <= X - IZR ax <= 12000) by (apply SQ; pose proof (NN (Y - IZR ay)); lra).
  assert (By : - 12000 <= Y - IZR ay <= 12000) by (apply SQ; pose proof (NN (X - IZR ax)); lra).
  assert (D : forall c a Z0, fin c -> R64 (f64_of_Z a) = IZR a -> fin (f64_of_Z a) -> - e40 <= R64 c - Z0 <= e40 -> - 12000 <= Z0 - IZR a <= 12000 ->
    fin (fsub c (f64_of_Z a)) /\ - / 274877906944 <= R64 (fsub c (f64_of_Z a)) - (Z0 - IZR a) <= / 274877906944).
  { intros c a Z0 Fc Ea Fa Ec B. unfold e40 in Ec. destruct (fsub_R c (f64_of_Z a) Fc Fa) as [F E].
    - rewrite Ea. apply big_1023. rb.
    - split; [exact F|]. rewrite E, Ea. pose proof (err64 (R64 c - IZR a) 14 16384 ltac:(lia) eq_refl ltac:(lra)) as Q. cbn in Q. lra. }
  assert (M : forall f z, fin f -> - / 274877906944 <= R64 f - z <= / 274877906944 -> - 12000 <= z <= 12000 ->
    fin (fmul f f) /\ - / 4194304 <= R64 (fmul f f) - z * z <= / 4194304).
  { intros f z Ff Ef Bz. set (e := R64 f - z) in *. assert (Rf : R64 f = z + e) by (unfold e; lra).
    assert (Q2 : - / 11000000 <= R64 f * R64 f - z * z <= / 11000000).
    { rewrite Rf. replace ((z + e) * (z + e) - z * z) with (e * (2 * z + e)) by ring.
      assert (Rabs (e * (2 * z + e)) <= / 274877906944 * 24001).
      { rewrite Rabs_mult. apply Rmult_le_compat; try apply Rabs_pos; apply Rabs_le; lra. }
      apply Rabs_le_inv in H. lra. }
    assert (0 <= z * z <= 12000 * 12000) by (clear - Bz; split; nra).
    destruct (fmul_R f f Ff Ff) as [F E]; [apply big_1023; rb|].
    split; [exact F|]. rewrite E. pose proof (err64 (R64 f * R64 f) 28 268435456 ltac:(lia) eq_refl ltac:(lra)) as Q. cbn in Q. lra. }
  destruct (D cx ax X Fx Eax Fax Ex Bx) as [F1 E1]. destruct (D cy ay Y Fy Eay Fay Ey By) as [F2 E2]. fold dx in F1, E1. fold dy in F2, E2.
  destruct (M dx _ F1 E1 Bx) as [F3 E3]. destruct (M dy _ F2 E2 By) as [F4 E4].
  pose proof (NN (X - IZR ax)). pose proof (NN (Y - IZR ay)).
  destruct (fadd_R _ _ F3 F4) as [F5 E5]; [apply big_1023; rb|].
  pose proof (err64 (R64 (fmul dx dx) + R64 (fmul dy dy)) 28 268435456 ltac:(lia) eq_refl ltac:(lra)) as Q. cbn in Q. rewrite <- E5 in Q.
  set (q := R64 (fadd (fmul dx dx) (fmul dy dy))) in *.
  assert (Eq : - / 1048576 <= q - r * r <= / 1048576) by lra.
  assert (rr : 1 / 4 <= r * r) by (replace (1 / 4) with (1 / 2 * (1 / 2)) by lra; apply Rmult_le_compat; lra).
  destruct (fsqrt_R _ F5) as [F6 E6]; [fold q; lra|]. fold s in F6, E6. fold q in E6. split; [exact F6|]. rewrite E6.
  assert (Sq : sqrt q * sqrt q = q) by (apply sqrt_sqrt; lra). pose proof (sqrt_pos q) as Sp. set (y := sqrt q) in *.
  assert (Dy : - / 524288 <= y - r <= / 524288).
  { assert (K : (y - r) * (y + r) = q - r * r) by (rewrite <- Sq; ring). clear - K Eq Sp Hr.
    split.
    - apply Rnot_lt_le. intros L. assert (r - y > / 524288) by lra. assert ((r - y) * (y + r) > / 1048576) by nra. lra.
    - apply Rnot_lt_le. intros L. assert ((y - r) * (y + r) > / 1048576) by nra. lra. }
  pose proof (err64 y 14 16384 ltac:(lia) eq_refl ltac:(lra)) as Q2. cbn in Q2. lra.
Qed.

(* ---------------------------------------------------------------- *)
(** * The widened radius exceeds the rounding errors *)
Lemma mult32 x e : generic_format radix2 (SpecFloat.fexp 24 128) x -> (-126 <= e)%Z -> bpow radix2 e <= x ->
  exists k, x = IZR k * bpow radix2 (e - 23).
Proof.
  intros G He L. red in G. set (c := cexp radix2 (SpecFloat.fexp 24 128) x) in G. unfold F2R in G. cbn [Fnum Fexp] in G.
  set (n := Ztrunc (scaled_mantissa radix2 (SpecFloat.fexp 24 128) x)) in G.
  assert (M : (e < mag radix2 x)%Z).
  { apply mag_gt_bpow. rewrite Rabs_pos_eq; [exact L|]. eapply Rle_trans; [apply bpow_ge_0|exact L]. }
  assert (C : (e - 23 <= c)%Z) by (unfold c, cexp, SpecFloat.fexp, SpecFloat.emin; lia).
  exists (n * 2 ^ (c - (e - 23)))%Z. rewrite mult_IZR, <- bpow_IZR by lia. rewrite Rmult_assoc, <- bpow_plus.
  replace (c - (e - 23) + (e - 23))%Z with c by lia. exact G.
Qed.

Lemma milli_fin : fin32 f32_milli /\ R32 f32_milli = 8589935 * bpow radix2 (-33).
Proof.
  assert (B : Rabs (8589935 * bpow radix2 (-33)) <= bpow radix2 127) by (apply big_127; apply Rabs_le; cbn; lra).
  pose proof (f32_dy_R 8589935 (-33) B) as FE. split; [exact (proj1 FE)|].
  unfold f32_milli. eapply eq_trans; [exact (proj2 FE)|]. apply (rnd32_dy 8589935 (-33)); lia.
Qed.

Definition margin : R := / 8192.   (* 2^-13 *)

(** r is the exact radius, rs its f64 value. *)
Lemma widened rs r : fin rs -> - / 262144 <= R64 rs - r <= / 262144 -> 1 / 2 <= r <= 12000 ->
  let rad := f32add (f32_of_f64 rs) f32_milli in
  fin32 rad /\ r + / 4096 + e40 + margin <= R32 rad <= 13000 /\ (r <= 8190 -> r + / 2048 + / 131072 <= R32 rad).
Proof.
  intros Fr Er Hr rad. destruct milli_fin as [Fm Em].
  destruct (f32_of_f64_R rs Fr) as [F1 E1]; [apply big_127; rb|].
  set (r32 := R32 (f32_of_f64 rs)) in *.
  assert (Q1 : - / 2048 <= r32 - R64 rs <= / 2048).
  { rewrite E1. apply (err32 (R64 rs) 14 16384); [lia|reflexivity|lra]. }
  replace (8589935 * bpow radix2 (-33)) with (8589935 * / 8589934592) in Em by reflexivity.
  destruct (f32add_R _ _ F1 Fm) as [F2 E2]; [apply big_127; fold r32; rewrite Em; rb|].
  fold rad in F2, E2. fold r32 in E2.
  assert (Q2 : - / 2048 <= R32 rad - (r32 + R32 f32_milli) <= / 2048).
  { rewrite E2. apply (err32 _ 14 16384); [lia|reflexivity|rewrite Em; lra]. }
  split; [exact F2|].
  assert (NX : r <= 8190 -> r + / 2048 + / 131072 <= R32 rad).
  { intros N. assert (Q3 : - / 4096 <= r32 - R64 rs <= / 4096).
    { rewrite E1. apply (err32 (R64 rs) 13 8192); [lia|reflexivity|lra]. }
    assert (Q4 : - / 4096 <= R32 rad - (r32 + R32 f32_milli) <= / 4096).
    { rewrite E2. apply (err32 _ 13 8192); [lia|reflexivity|rewrite Em; lra]. }
    rewrite Em in Q4. lra. }
  split; [|exact NX]. split; [|rewrite Em in Q2; lra]. unfold margin, e40.
  destruct (Rle_dec r32 8191) as [S|S].
  - assert (R64 rs <= 8192).
    { apply Rnot_lt_le. intros L. assert (rnd32 8192 <= r32) by (rewrite E1; apply rnd32_le; lra). rewrite (rnd32_Z 8192) in H by lia. lra. }
    assert (Q3 : - / 4096 <= r32 - R64 rs <= / 4096).
    { rewrite E1. apply (err32 (R64 rs) 13 8192); [lia|reflexivity|lra]. }
    assert (Q4 : - / 4096 <= R32 rad - (r32 + R32 f32_milli) <= / 4096).
    { rewrite E2. apply (err32 _ 13 8192); [lia|reflexivity|rewrite Em; lra]. }
    rewrite Em in Q4. lra.
  - assert (K : r32 + / 1024 <= R32 rad).
    { assert (G : generic_format radix2 (SpecFloat.fexp 24 128) r32) by apply generic_format_B2R.
      assert (G2 : generic_format radix2 (SpecFloat.fexp 24 128) (R32 rad)) by apply generic_format_B2R.
      assert (Rep : forall k e, (0 <= k <= 2 ^ 24)%Z -> (-149 <= e)%Z -> r32 + / 1024 = IZR k * bpow radix2 e -> r32 + / 1024 <= R32 rad).
      { intros k e Hk He Ek. rewrite Ek, <- (rnd32_dy k e) by lia. rewrite <- Ek, E2. apply rnd32_le. rewrite Em. lra. }
      destruct (Rle_dec 8192 r32) as [T|T].
      - destruct (mult32 r32 13 G ltac:(lia) T) as (k & Ek). change (13 - 23)%Z with (-10)%Z in Ek. cbn in Ek.
        apply (Rep (k + 1)%Z (-10)%Z); [|lia|cbn; rewrite plus_IZR; lra].
        assert (IZR (k + 1) <= IZR (2 ^ 24)) by (change (2 ^ 24)%Z with 16777216%Z; rewrite plus_IZR; lra). apply le_IZR in H.
        assert (0 <= IZR k) by lra. apply le_IZR in H0. lia.
      - destruct (mult32 r32 12 G ltac:(lia) ltac:(cbn; lra)) as (k & Ek). change (12 - 23)%Z with (-11)%Z in Ek. cbn in Ek.
        destruct (Z_le_gt_dec (k + 2) (2 ^ 24)) as [L|L].
        + apply (Rep (k + 2)%Z (-11)%Z); [|lia|cbn; rewrite plus_IZR; lra].
          assert (0 <= IZR k) by lra. apply le_IZR in H. lia.
        + change (2 ^ 24)%Z with 16777216%Z in L. assert (IZR k < 16777216) by lra. apply lt_IZR in H.
          assert (k = 16777215)%Z by lia. subst k.
          destruct (mult32 (R32 rad) 13 G2 ltac:(lia)) as (j & Ej); [cbn; rewrite Em in Q2; lra|]. change (13 - 23)%Z with (-10)%Z in Ej. cbn in Ej.
          assert (8388608 < IZR j) by (rewrite Em in Q2; lra). apply lt_IZR in H0.
          assert (IZR 8388609 <= IZR j) by (apply IZR_le; lia). lra. }
    lra.
Qed.

(** One coordinate of the box: the bounds clear the point by the margin. *)
Lemma box_sides cc X p rad r : fin cc -> - e40 <= R64 cc - X <= e40 -> - 8190 <= X <= 8750 -> (0 <= p <= 1920)%Z ->
  fin32 rad -> r + / 4096 + e40 + margin <= R32 rad <= 13000 -> (8190 < X -> r + / 2048 + / 131072 <= R32 rad) -> 1 / 2 <= r -> - r <= X - IZR p <= r ->
  let lo := f32sub (f32_of_f64 cc) rad in let hi := f32add (f32_of_f64 cc) rad in
  fin32 lo /\ fin32 hi /\ - 32768 <= R32 lo <= IZR p - margin /\ IZR p + margin <= R32 hi <= 32768.
Proof.
  intros Fc Ec BX Hp Fr Hrad Hfar Hr Hx lo hi. unfold e40, margin in *.
  assert (Bp : 0 <= IZR p <= 1920) by (split; apply IZR_le; lia).
  destruct (f32_of_f64_R cc Fc) as [F1 E1]; [apply big_127; rb|].
  assert (Q0 : - / 2048 <= R32 (f32_of_f64 cc) - R64 cc <= / 2048).
  { rewrite E1. apply (err32 (R64 cc) 14 16384); [lia|reflexivity|lra]. }
  assert (SUM : R32 (f32_of_f64 cc) - R32 rad <= IZR p - / 8192 /\ IZR p + / 8192 <= R32 (f32_of_f64 cc) + R32 rad).
  { destruct (Rle_dec X 8190) as [N|N].
    - assert (Q1 : - / 4096 <= R32 (f32_of_f64 cc) - R64 cc <= / 4096).
      { rewrite E1. apply (err32 (R64 cc) 13 8192); [lia|reflexivity|lra]. }
      lra.
    - specialize (Hfar ltac:(lra)). split; [|lra].
      destruct (mult32 (R32 (f32_of_f64 cc)) 12) as (k & Ek); [apply generic_format_B2R|lia|cbn; lra|].
      destruct (mult32 (R32 rad) 12) as (j & Ej); [apply generic_format_B2R|lia|cbn; lra|].
      change (12 - 23)%Z with (-11)%Z in Ek, Ej. cbn in Ek, Ej.
      assert (KJ : IZR (k - j) < IZR (2048 * p)) by (rewrite minus_IZR, mult_IZR; lra). apply lt_IZR in KJ.
      assert (KJ2 : IZR (k - j) <= IZR (2048 * p - 1)) by (apply IZR_le; lia). rewrite !minus_IZR, mult_IZR in KJ2. lra. }
  destruct (f32sub_R _ _ F1 Fr) as [F2 E2]; [apply big_127; rb|]. destruct (f32add_R _ _ F1 Fr) as [F3 E3]; [apply big_127; rb|].
  fold lo in F2, E2. fold hi in F3, E3. split; [exact F2|]. split; [exact F3|]. rewrite E2, E3.
  assert (P1 : IZR p + / 8192 = IZR (p * 8192 + 1) * bpow radix2 (-13)) by (cbn; rewrite plus_IZR, mult_IZR; lra).
  assert (P2 : IZR p - / 8192 = IZR (p * 8192 - 1) * bpow radix2 (-13)) by (cbn; rewrite minus_IZR, mult_IZR; lra).
  split; split.
  - rewrite <- (rnd32_Z (-32768)) by lia. apply rnd32_le. lra.
  - rewrite P2, <- rnd32_dy by lia. apply rnd32_le. rewrite <- P2. lra.
  - rewrite P1, <- rnd32_dy by lia. apply rnd32_le. rewrite <- P1. lra.
  - rewrite <- (rnd32_Z 32768) by lia. apply rnd32_le. lra.
Qed.

(* ---------------------------------------------------------------- *)
(** * The cells *)
Lemma cell_box w x lo hi : (1 <= w <= 1920)%Z -> (0 <= x <= w)%Z -> fin32 lo -> fin32 hi ->
  - 32768 <= R32 lo <= IZR x - margin -> IZR x + margin <= R32 hi <= 32768 ->
  let c := fdiv (f64_of_Z w) (f64_of_Z 10) in
  let u := go_int (ffloor (fdiv (f64_of_Z x) c)) in let k := (if u =? 10 then 10 - 1 else u)%Z in
  let l := go_int (fdiv (f64_of_f32 lo) c) in let r := go_int (fceil (fdiv (f64_of_f32 hi) c)) in
  ((if l <? 0 then 0 else l) <= k < (if r >? 10 then 10 else r))%Z.
Proof.
  intros Hw Hx Fl Fh Bl Bh c u k l r. unfold margin in *.
  assert (E10 : R64 (f64_of_Z 10) = 10) by (apply (of_Z_val 10); lia).
  assert (Ew : R64 (f64_of_Z w) = IZR w) by (apply of_Z_val; lia).
  assert (Ex : R64 (f64_of_Z x) = IZR x) by (apply of_Z_val; lia).
  assert (Bw : 1 <= IZR w <= 1920) by (split; apply IZR_le; lia).
  assert (Bx : 0 <= IZR x <= IZR w) by (split; apply IZR_le; lia).
  destruct (fdiv_R (f64_of_Z w) (f64_of_Z 10)) as [Fc Ec]; [apply of_Z_fin; lia|apply of_Z_fin; lia|rewrite E10; lra| |].
  { rewrite Ew, E10. apply big_1023. rb. }
  fold c in Fc, Ec. rewrite Ew, E10 in Ec.
  assert (Rel : - (/ 9007199254740992 * (IZR w / 10) + / 9007199254740992 * (1 / 100)) <= R64 c - IZR w / 10 <= / 9007199254740992 * (IZR w / 10) + / 9007199254740992 * (1 / 100)).
  { apply Rabs_le_inv. rewrite Ec. eapply Rle_trans; [apply rnd_rel|]. rewrite (Rabs_pos_eq (IZR w / 10)) by lra.
    apply Rplus_le_compat; [cbn; lra|]. apply Rle_trans with (bpow radix2 (-60)); [apply bpow_le; lia|cbn; lra]. }
  set (ce := R64 c) in *.
  assert (Pc : / 11 <= ce <= 193) by lra.
  assert (DIV : forall a b, a <= b -> a / ce <= b / ce).
  { intros a b L. apply Rmult_le_compat_r; [apply Rlt_le, Rinv_0_lt_compat; lra|exact L]. }
  assert (UB : forall a q, a <= q * ce -> a / ce <= q).
  { intros a q L. apply Rmult_le_reg_r with ce; [lra|]. unfold Rdiv. rewrite Rmult_assoc, Rinv_l by lra. lra. }
  assert (LB : forall a q, q * ce <= a -> q <= a / ce).
  { intros a q L. apply Rmult_le_reg_r with ce; [lra|]. unfold Rdiv. rewrite Rmult_assoc, Rinv_l by lra. lra. }
  set (y := IZR x / ce).
  assert (By : 0 <= y <= 10 + / 1000000000000).
  { split; [apply LB; lra|]. apply UB. lra. }
  (* the cell of the point *)
  destruct (fdiv_R (f64_of_Z x) c) as [F1 E1]; [apply of_Z_fin; lia|exact Fc|fold ce; lra|rewrite Ex; fold ce y; apply big_1023; rb|].
  rewrite Ex in E1. fold ce y in E1.
  pose proof (err64 y 4 16 ltac:(lia) eq_refl ltac:(lra)) as Q1. cbn in Q1. rewrite <- E1 in Q1.
  destruct (ffloor_R _ F1) as [F2 E2]. set (yr := R64 (fdiv (f64_of_Z x) c)) in *.
  assert (Y0 : 0 <= yr) by (rewrite E1, <- rnd_0; apply rnd_le; lra).
  assert (Eu : u = Zfloor yr).
  { unfold u. rewrite (go_int_small _ 100); [rewrite E2; apply Ztrunc_IZR|exact F2| |lia]. rewrite E2.
    pose proof (Zfloor_lb yr). pose proof (Zfloor_ub yr). apply Rabs_le. lra. }
  assert (Bu : (0 <= u <= 10)%Z).
  { rewrite Eu. split; [apply Zfloor_lub; lra|]. apply Zlt_succ_le, lt_IZR. eapply Rle_lt_trans; [apply Zfloor_lb|]. rewrite succ_IZR. lra. }
  (* the left side *)
  destruct (f64_of_f32_R lo Fl) as [F3 E3]. destruct (f64_of_f32_R hi Fh) as [F4 E4].
  assert (L1 : R32 lo / ce <= y - / 2097152).
  { apply UB. assert (y * ce = IZR x) by (unfold y; unfold Rdiv; rewrite Rmult_assoc, Rinv_l by lra; lra).
    rewrite Rmult_minus_distr_r, H. lra. }
  assert (L2 : - 400000 <= R32 lo / ce) by (apply LB; lra).
  destruct (fdiv_R _ c F3 Fc) as [F5 E5]; [fold ce; lra|rewrite E3; fold ce; apply big_1023; rb|].
  rewrite E3 in E5. fold ce in E5.
  assert (L3 : R64 (fdiv (f64_of_f32 lo) c) <= y - / 2097152 + / 1125899906842624).
  { rewrite E5. apply Rle_trans with (rnd (y - / 2097152)); [apply rnd_le, L1|].
    pose proof (err64 (y - / 2097152) 4 16 ltac:(lia) eq_refl ltac:(lra)) as Q. cbn in Q. lra. }
  assert (L4 : - 400000 <= R64 (fdiv (f64_of_f32 lo) c)).
  { rewrite E5, <- (rnd_Z (-400000)) by lia. apply rnd_le. exact L2. }
  assert (El : l = Ztrunc (R64 (fdiv (f64_of_f32 lo) c))).
  { unfold l. apply (go_int_small _ 400000); [exact F5| |lia]. apply Rabs_le. lra. }
  set (ql := R64 (fdiv (f64_of_f32 lo) c)) in *.
  assert (Lk : (l < 0 \/ (l <= u /\ l <= 9))%Z \/ (l = 0)%Z).
  { destruct (Rle_dec 0 ql) as [N|N].
    - left. right. rewrite El, Ztrunc_floor by exact N. split.
      + rewrite Eu. apply Zfloor_le. lra.
      + apply Zlt_succ_le, lt_IZR. eapply Rle_lt_trans; [apply Zfloor_lb|]. simpl. lra.
    - assert (l <= 0)%Z.
      { rewrite El, Ztrunc_ceil by lra. apply Zceil_glb. lra. }
      destruct (Z.eq_dec l 0); [right; assumption|left; left; lia]. }
  (* the right side *)
  assert (R1 : y + / 2097152 <= R32 hi / ce).
  { apply LB. assert (y * ce = IZR x) by (unfold y; unfold Rdiv; rewrite Rmult_assoc, Rinv_l by lra; lra).
    rewrite Rmult_plus_distr_r, H. lra. }
  assert (R2' : R32 hi / ce <= 400000) by (apply UB; lra).
  destruct (fdiv_R _ c F4 Fc) as [F6 E6]; [fold ce; lra|rewrite E4; fold ce; apply big_1023; rb|].
  rewrite E4 in E6. fold ce in E6.
  assert (R3 : y + / 2097152 - / 1125899906842624 <= R64 (fdiv (f64_of_f32 hi) c)).
  { rewrite E6. apply Rle_trans with (rnd (y + / 2097152)); [|apply rnd_le, R1].
    pose proof (err64 (y + / 2097152) 4 16 ltac:(lia) eq_refl ltac:(lra)) as Q. cbn in Q. lra. }
  assert (R4 : R64 (fdiv (f64_of_f32 hi) c) <= 400000).
  { rewrite E6, <- (rnd_Z 400000) by lia. apply rnd_le. exact R2'. }
  destruct (fceil_R _ F6) as [F7 E7]. set (qr := R64 (fdiv (f64_of_f32 hi) c)) in *.
  assert (Er : r = Zceil qr).
  { unfold r. rewrite (go_int_small _ 500000); [rewrite E7; apply Ztrunc_IZR|exact F7| |lia]. rewrite E7.
    pose proof (Zceil_ub qr). assert (Zceil qr <= 400000)%Z by (apply Zceil_glb; exact R4). apply IZR_le in H0.
    apply Rabs_le. lra. }
  assert (Rk : (u < r)%Z).
  { rewrite Er. apply lt_IZR. eapply Rlt_le_trans; [|apply Zceil_ub]. rewrite Eu. eapply Rle_lt_trans; [apply Zfloor_lb|]. lra. }
  clearbody l r u. clear - Lk Rk Bu. unfold k.
  destruct (Z.eqb_spec u 10), (Z.ltb_spec l 0), (Z.gtb_spec r 10); lia.
Qed.

(* ---------------------------------------------------------------- *)
(** * The look-up of a state *)
Definition small_size (w h : Z) : Prop := (1 <= w <= 1920 /\ 1 <= h <= 1920 /\ 2 <= Z.max w h)%Z.

Lemma adiff x y : (Z.abs x <= 4802 -> Z.abs y <= 4802 -> Z.abs (x - y) <= 9604)%Z. Proof. lia. Qed.
Lemma asum x y : (Z.abs x <= 4802 -> Z.abs y <= 4802 -> Z.abs (x + y) <= 9604)%Z. Proof. lia. Qed.
Lemma mul_add x y u v M N : (Z.abs x <= M -> Z.abs y <= N -> Z.abs u <= M -> Z.abs v <= N -> Z.abs (x * y + u * v) <= 2 * (M * N))%Z.
Proof. intros H1 H2 H3 H4. pose proof (mul_bound _ _ _ _ H1 H2). pose proof (mul_bound _ _ _ _ H3 H4). lia. Qed.
Lemma mul_sub x y u v M N : (Z.abs x <= M -> Z.abs y <= N -> Z.abs u <= M -> Z.abs v <= N -> Z.abs (x * y - u * v) <= 2 * (M * N))%Z.
Proof. intros H1 H2 H3 H4. pose proof (mul_bound _ _ _ _ H1 H2). pose proof (mul_bound _ _ _ _ H3 H4). lia. Qed.
Lemma neq_dist a b : a <> b -> (1 <= (px a - px b) * (px a - px b) + (py a - py b) * (py a - py b))%Z.
Proof.
  destruct a as [x y], b as [u v]. cbn [px py]. intros N.
  assert (x - u <> 0 \/ y - v <> 0)%Z as H. { destruct (Z.eq_dec x u), (Z.eq_dec y v); try lia. subst. congruence. }
  assert (Q : forall z, (z <> 0 -> 1 <= z * z)%Z) by (intros z Hz; nia). pose proof (Z.square_nonneg (x - u)). pose proof (Z.square_nonneg (y - v)).
  destruct H as [H|H]; apply Q in H; lia.
Qed.

Section Found.
  Context (w h : Z) (a b c p : point) (S : small_size w h).
  Hypothesis (Ha : okv w h a) (Hb : okv w h b) (Hc : okv w h c) (Hp : in_image w h p) (Ho : orient a b c <> 0%Z).

  Let A := (px b - px a)%Z.  Let B := (py b - py a)%Z.  Let C := (px c - px a)%Z.  Let D := (py c - py a)%Z.
  Let E := (A * (px a + px b) + B * (py a + py b))%Z.  Let F := (C * (px a + px c) + D * (py a + py c))%Z.
  Let G := (2 * (A * (py c - py b) - B * (px c - px b)))%Z.
  Let NX := (D * E - B * F)%Z.  Let NY := (A * F - C * E)%Z.

  Lemma small_coord v : okv w h v -> (Z.abs (px v) <= 4802 /\ Z.abs (py v) <= 4802)%Z.
  Proof.
    intros V. destruct S as (Hw & Hh & Hm). assert (S' : size_ok w h) by (unfold size_ok; lia).
    pose proof (okv_range _ _ _ S' V) as Q. cbv zeta in Q. pose proof (half_bounds w ltac:(lia)). pose proof (half_bounds h ltac:(lia)). lia.
  Qed.
  Lemma i16_small z : (Z.abs z <= 9700)%Z -> i16 z = z.
  Proof. intros Hz. apply i16_id. unfold int16_range. lia. Qed.

  Lemma sizes : (Z.abs A <= 9604 /\ Z.abs B <= 9604 /\ Z.abs C <= 9604 /\ Z.abs D <= 9604 /\
    Z.abs E <= 184473632 /\ Z.abs F <= 184473632 /\ Z.abs G <= 368947264 /\ Z.abs NX <= 3543369523456 /\ Z.abs NY <= 3543369523456)%Z.
  Proof.
    pose proof (small_coord a Ha) as [A1 A2]. pose proof (small_coord b Hb) as [B1 B2]. pose proof (small_coord c Hc) as [C1 C2].
    assert (QA : (Z.abs A <= 9604)%Z) by (apply adiff; assumption). assert (QB : (Z.abs B <= 9604)%Z) by (apply adiff; assumption).
    assert (QC : (Z.abs C <= 9604)%Z) by (apply adiff; assumption). assert (QD : (Z.abs D <= 9604)%Z) by (apply adiff; assumption).
    assert (QE : (Z.abs E <= 184473632)%Z) by (apply (mul_add _ _ _ _ 9604 9604); try assumption; apply asum; assumption).
    assert (QF : (Z.abs F <= 184473632)%Z) by (apply (mul_add _ _ _ _ 9604 9604); try assumption; apply asum; assumption).
    repeat split; try assumption.
    - unfold G. rewrite Z.abs_mul. change (Z.abs 2) with 2%Z. apply (Z.mul_le_mono_nonneg_l _ 184473632); [discriminate|].
      apply (mul_sub _ _ _ _ 9604 9604); try assumption; apply adiff; assumption.
    - apply (mul_sub _ _ _ _ 9604 184473632); assumption.
    - apply (mul_sub _ _ _ _ 9604 184473632); assumption.
  Qed.

  Let cx := fdiv (f64_of_Z NX) (f64_of_Z G).  Let cy := fdiv (f64_of_Z NY) (f64_of_Z G).
  Let dx := fsub cx (f64_of_Z (px a)).  Let dy := fsub cy (f64_of_Z (py a)).
  Let rs := fsqrt (fadd (fmul dx dx) (fmul dy dy)).

  Lemma calc_exact : calc_circumcircle a b c = Circ (f32_of_f64 cx) (f32_of_f64 cy) (f32_of_f64 rs).
  Proof.
    pose proof (small_coord a Ha) as [A1 A2]. pose proof (small_coord b Hb) as [B1 B2]. pose proof (small_coord c Hc) as [C1 C2].
    pose proof sizes as (_ & _ & _ & _ & _ & _ & QG & QX & QY).
    unfold calc_circumcircle.
    rewrite !i16_small by (eapply Z.le_trans; [first [apply adiff; assumption|apply asum; assumption]|discriminate]).
    fold A B C D. fold E F. fold G NX NY.
    rewrite (i64_id G), (i64_id NX), (i64_id NY) by (eapply Z.le_lt_trans; [eassumption|reflexivity]). reflexivity.
  Qed.

  Lemma G_orient : G = (2 * orient a b c)%Z.
  Proof. unfold G, A, B, orient. ring. Qed.
  Lemma equi_b : sdist2 NX NY G b = sdist2 NX NY G a.
  Proof. unfold sdist2, NX, NY, G, E, F, A, B, C, D. ring. Qed.
  Lemma equi_c : sdist2 NX NY G c = sdist2 NX NY G a.
  Proof. unfold sdist2, NX, NY, G, E, F, A, B, C, D. ring. Qed.

  Let X := IZR NX / IZR G.  Let Y := IZR NY / IZR G.
  Let D2 (q : point) : R := (X - IZR (px q)) * (X - IZR (px q)) + (Y - IZR (py q)) * (Y - IZR (py q)).

  Lemma G_neq : IZR G <> 0.
  Proof. apply IZR_neq. rewrite G_orient. clear - Ho. lia. Qed.
  Lemma D2_sdist q : IZR (sdist2 NX NY G q) = IZR G * IZR G * D2 q.
  Proof.
    unfold sdist2, D2, X, Y. rewrite plus_IZR, !mult_IZR, !minus_IZR, !mult_IZR. field. apply G_neq.
  Qed.
  Lemma D2_le q q' : (sdist2 NX NY G q <= sdist2 NX NY G q')%Z -> D2 q <= D2 q'.
  Proof.
    intros L. apply IZR_le in L. rewrite !D2_sdist in L.
    apply Rmult_le_reg_l with (IZR G * IZR G); [|exact L]. apply Rlt_0_sqr. apply G_neq.
  Qed.
  Lemma D2_b : D2 b = D2 a.
  Proof. apply Rle_antisym; apply D2_le; rewrite equi_b; apply Z.le_refl. Qed.

  Hypothesis (Hin : D2 p <= D2 a) (Hsup : forall s, In s (verts (sup w h)) -> D2 a <= D2 s).

  Let m := IZR (Z.max w h).
  Let al := IZR (px p - (w + 1) / 2).  Let be := IZR (py p - (h + 1) / 2).

  Lemma al_be : 2 <= m <= 1920 /\ - (m + 1) <= 2 * al <= m + 1 /\ - (m + 1) <= 2 * be <= m + 1.
  Proof.
    destruct S as (Hw & Hh & Hm). destruct Hp as [P1 P2]. unfold m, al, be. clear - Hw Hh Hm P1 P2.
    pose proof (half_bounds w ltac:(lia)). pose proof (half_bounds h ltac:(lia)).
    repeat split; rewrite <- ?mult_IZR, <- ?plus_IZR, <- ?opp_IZR, <- ?mult_IZR; apply IZR_le; lia.
  Qed.

  Let ox := X - IZR (px p).  Let oy := Y - IZR (py p).
  Lemma sup_ineq : 
    (D2 a <= (- 2 * m - al - ox) * (- 2 * m - al - ox) + (- m - be - oy) * (- m - be - oy)) /\
    (D2 a <= (2 * m - al - ox) * (2 * m - al - ox) + (- m - be - oy) * (- m - be - oy)) /\
    (D2 a <= (- al - ox) * (- al - ox) + (2 * m - be - oy) * (2 * m - be - oy)).
  Proof.
    assert (I1 : In (sA w h) (verts (sup w h))) by (unfold sup, verts; cbn [ta tb tc In]; auto).
    assert (I2 : In (sC w h) (verts (sup w h))) by (unfold sup, verts; cbn [ta tb tc In]; auto).
    assert (I3 : In (sB w h) (verts (sup w h))) by (unfold sup, verts; cbn [ta tb tc In]; auto).
    split; [|split].
    - eapply Rle_trans; [apply (Hsup _ I1)|]. right. unfold D2, sA, m, al, be, ox, oy. cbn [px py]. rewrite !minus_IZR, mult_IZR. ring.
    - eapply Rle_trans; [apply (Hsup _ I2)|]. right. unfold D2, sC, m, al, be, ox, oy. cbn [px py]. rewrite !minus_IZR, plus_IZR, mult_IZR. ring.
    - eapply Rle_trans; [apply (Hsup _ I3)|]. right. unfold D2, sB, m, al, be, ox, oy. cbn [px py]. rewrite !minus_IZR, plus_IZR, mult_IZR. ring.
  Qed.

  Lemma found_bounds : - 8190 <= X <= 8750 /\ - 8190 <= Y <= 8190 /\ D2 a <= 12000 * 12000 /\ (8190 < X -> D2 a <= 8190 * 8190).
  Proof.
    destruct al_be as (Bm & Bal & Bbe). destruct sup_ineq as (I1 & I2 & I3).
    assert (Ep : D2 p = ox * ox + oy * oy) by reflexivity.
    assert (J : Rabs ox <= 6800 /\ - 8180 <= oy <= 5760) by (apply (centre_bounds m al be ox oy); lra).
    assert (K : D2 a <= 12000 * 12000) by (apply (radius_bound m al be ox oy); lra).
    destruct J as [J1 J2]. apply Rabs_le_inv in J1.
    destruct S as (Hw & Hh & Hm). destruct Hp as [P1 P2].
    assert (0 <= IZR (px p) <= 1920) by (clear - P1 Hw; split; apply IZR_le; lia). assert (0 <= IZR (py p) <= 1920) by (clear - P2 Hh; split; apply IZR_le; lia).
    assert (FR : 8190 < X -> D2 a <= 8190 * 8190).
    { intros N. apply (far_right m al be ox oy); try lra. unfold al, ox. rewrite minus_IZR.
      assert (IZR ((w + 1) / 2) <= 960) by (apply IZR_le; pose proof (half_bounds w ltac:(lia)); lia). lra. }
    unfold ox, oy in J1, J2. split; [lra|]. split; [lra|]. split; [exact K|exact FR].
  Qed.

  Lemma point_cell_found g : geo_ok w h g -> In (point_cell g p) (box_cells g (calc_circumcircle a b c)).
  Proof.
    intros (G1 & G2 & G3 & G4). destruct found_bounds as (BX & BY & BR & BF).
    assert (BY8 : - 8190 <= Y <= 8750) by (clear - BY; lra).
    pose proof sizes as (_ & _ & _ & _ & _ & _ & QG & QX & QY).
    pose proof (small_coord a Ha) as [A1 A2].
    assert (P0 : 0 <= D2 a) by (unfold D2; apply Rplus_le_le_0_compat; apply Rle_0_sqr).
    set (r := sqrt (D2 a)). assert (Er : r * r = D2 a) by (apply sqrt_sqrt; exact P0). pose proof (sqrt_pos (D2 a)) as Pr. fold r in Pr.
    assert (R12 : r <= 12000) by (apply Rnot_lt_le; intros L; rewrite <- Er in BR; clear - BR L; nra).
    assert (Rhalf : 1 / 2 <= r).
    { assert (N : a <> b). { intros e. apply Ho. rewrite e. unfold orient. ring. }
      assert (Z1 : (1 <= (px a - px b) * (px a - px b) + (py a - py b) * (py a - py b))%Z) by (apply neq_dist; exact N).
      apply IZR_le in Z1. rewrite plus_IZR, !mult_IZR, !minus_IZR in Z1.
      pose proof D2_b as EB. unfold D2 in EB, Er.
      set (u1 := X - IZR (px a)) in *. set (u2 := Y - IZR (py a)) in *. set (v1 := X - IZR (px b)) in *. set (v2 := Y - IZR (py b)) in *.
      replace (IZR (px a) - IZR (px b)) with (v1 - u1) in Z1 by (unfold v1, u1; ring).
      replace (IZR (py a) - IZR (py b)) with (v2 - u2) in Z1 by (unfold v2, u2; ring).
      pose proof (Rle_0_sqr (v1 + u1)) as S1. pose proof (Rle_0_sqr (v2 + u2)) as S2. unfold Rsqr in S1, S2.
      apply Rnot_lt_le. intros L. clearbody u1 u2 v1 v2 r. clear - L Pr Er EB Z1 S1 S2. assert (r * r < 1 / 4) by nra. nra. }
    destruct (centre_float NX G X) as [Fx Ex]; [eapply Z.le_trans; [exact QX|discriminate]|eapply Z.le_trans; [exact QG|discriminate]|rewrite G_orient; clear - Ho; lia|reflexivity|exact BX|]. fold cx in Fx, Ex.
    destruct (centre_float NY G Y) as [Fy Ey]; [eapply Z.le_trans; [exact QY|discriminate]|eapply Z.le_trans; [exact QG|discriminate]|rewrite G_orient; clear - Ho; lia|reflexivity|exact BY8|]. fold cy in Fy, Ey.
    destruct (radius_float cx cy (px a) (py a) X Y r Fx Fy ltac:(clear - A1; lia) ltac:(clear - A2; lia) Ex Ey (conj Rhalf R12) Er) as [Fs Es]. fold dx dy in Fs, Es. fold rs in Fs, Es.
    destruct (widened rs r Fs Es (conj Rhalf R12)) as (Fr & Br & Bs).
    assert (BXr : 8190 < X -> r <= 8190) by (intros N; specialize (BF N); rewrite <- Er in BF; apply Rnot_lt_le; intros L; clear - BF L; nra).
    destruct S as (Hw & Hh & Hm). destruct Hp as [P1 P2].
    assert (IN : forall u v, u * u + v * v <= r * r -> - r <= u <= r) by (intros u v L; pose proof (Rle_0_sqr v) as Sv; unfold Rsqr in Sv; clear - L Sv Pr; split; apply Rnot_lt_le; intros Q; nra).
    rewrite <- Er in Hin. unfold D2 in Hin.
    destruct (box_sides cx X (px p) _ r Fx Ex BX ltac:(clear - P1 Hw; lia) Fr Br (fun N => Bs (BXr N)) Rhalf (IN _ _ Hin)) as (L1 & L2 & L3 & L4).
    rewrite Rplus_comm in Hin.
    destruct (box_sides cy Y (py p) _ r Fy Ey BY8 ltac:(clear - P2 Hh; lia) Fr Br (fun N => False_ind _ (Rlt_not_le _ _ N (proj2 BY))) Rhalf (IN _ _ Hin)) as (M1 & M2 & M3 & M4).
    pose proof (cell_box w (px p) _ _ Hw P1 L1 L2 L3 L4) as CX. pose proof (cell_box h (py p) _ _ Hh P2 M1 M2 M3 M4) as CY. cbv zeta in CX, CY.
    rewrite calc_exact. unfold box_cells, circle_box, point_cell. cbn [cc_x cc_y cc_r]. rewrite G1, G2, G3, G4.
    apply in_flat_map. eexists. split; [apply zfor_In; exact CX|]. apply in_map_iff. eexists. split; [reflexivity|apply zfor_In; exact CY].
  Qed.
End Found.

Theorem small_complete w h P d p : small_size w h -> dstate_ok w h P d -> in_image w h p -> lookup_complete d p.
Proof.
  intros S O Hp t It Hin. assert (S' : size_ok w h) by (unfold small_size, size_ok in *; lia).
  rewrite (ds_own _ _ _ _ O t It). destruct (ds_corners _ _ _ _ _ O It) as (Ca & Cb & Cc).
  pose proof (live_pos _ _ _ _ _ O It) as Pt.
  assert (HS : forall s, In s (verts (sup w h)) -> (tinc (ccw t) s <= 0)%Z).
  { intros s Is. apply (dt_empty _ _ _ (ds_del _ _ _ _ O)); [apply in_map; exact It|]. apply in_or_app. left. exact Is. }
  assert (Ho : orient (d_a t) (d_b t) (d_c t) <> 0%Z).
  { revert Pt. unfold pos, ccw. destruct (_ <? 0)%Z eqn:Q; cbn [ta tb tc]; [apply Z.ltb_lt in Q; lia|lia]. }
  set (a := d_a t) in *. set (b := d_b t) in *. set (c := d_c t) in *.
  pose proof (equi_b a b c) as EB. pose proof (equi_c a b c) as EC. cbv zeta in EB, EC.
  match type of EB with sdist2 ?x ?y ?g _ = _ => set (NX := x) in *; set (NY := y) in *; set (G := g) in * end.
  assert (GN : (0 < G * G)%Z).
  { assert (G <> 0)%Z by (pose proof (G_orient a b c) as EG; cbv zeta in EG; fold G in EG; lia). nia. }
  assert (K : forall q, exists k, (0 < k /\ G * G * tinc (ccw t) q = (sdist2 NX NY G a - sdist2 NX NY G q) * k)%Z).
  { intros q. revert Pt. unfold pos, tinc, ccw. fold a b c. destruct (_ <? 0)%Z eqn:Q; cbn [ta tb tc]; intros Pt.
    - exists (orient b a c). split; [exact Pt|]. rewrite <- EB. apply circle_identity; congruence.
    - exists (orient a b c). split; [exact Pt|]. apply circle_identity; assumption. }
  apply point_cell_found with (w := w) (h := h); try assumption.
  - apply D2_le; [exact Ho|]. fold NX NY G. destruct (K p) as (k & Pk & E). nia.
  - intros s Is. apply D2_le; [exact Ho|]. fold NX NY G. destruct (K s) as (k & Pk & E). pose proof (HS s Is). nia.
  - exact (ds_geo _ _ _ _ O).
Qed.

Lemma complete_finds w h P d p : size_ok w h -> dstate_ok w h P d -> in_image w h p -> lookup_complete d p -> grid_finds d p.
Proof.
  intros S O Hp L i t Ei Fi C. 
  assert (It : In t (live (d_tris d))) by (apply live_In; split; [eapply znth_In; exact Ei|exact Fi]).
  apply (ccw_closed t p (live_pos _ _ _ _ _ O It)) in C. pose proof (L t It C) as B.
  assert (G : exists l, group (d_grid d) p = Some l).
  { unfold group. pose proof (point_cell_range w h _ p S (ds_geo _ _ _ _ O) Hp) as Rg.
    destruct (point_cell (d_grid d) p) as [x y]. cbn [fst snd] in Rg. apply (cell_Some 10); [apply (s_shape _ _ _ _ (ds_slots _ _ _ _ O))|lia|lia]. }
  destruct G as (l & El). exists l. split; [exact El|]. unfold group in El.
  destruct (point_cell (d_grid d) p) as [x y]. apply (s_cell _ _ _ _ (ds_slots _ _ _ _ O) x y l i El). exists t. auto.
Qed.

Lemma small_finds_from w h ps : small_size w h -> forall P d, dstate_ok w h P d -> Forall (in_image w h) ps ->
  (Z.of_nat (length P) + Z.of_nat (length ps) <= 32765)%Z -> grid_finds_all d ps.
Proof.
  intros S. assert (S' : size_ok w h) by (unfold small_size, size_ok in *; lia).
  induction ps as [|p ps IH]; intros P d O F L; cbn [grid_finds_all]; [exact I|].
  inversion F as [|? ? Hp F']; subst. cbn [length] in L.
  pose proof (small_complete w h P d p S O Hp) as C. split; [apply (complete_finds w h P); assumption|].
  destruct (insert_ok w h P d p S' O Hp C) as (d1 & E & O1).
  - unfold mult. pose proof (count_occ_bound point_eq_dec p P). lia.
  - unfold distinct. pose proof (NoDup_incl_length (NoDup_nodup point_eq_dec (p :: P)) (l' := p :: P) (fun x I => proj1 (nodup_In _ _ _) I)). cbn [length] in *. lia.
  - rewrite E. apply (IH (p :: P)); [exact O1|exact F'|cbn [length]; lia].
Qed.
Theorem small_lookups w h ps : small_size w h -> Forall (in_image w h) ps -> (Z.of_nat (length ps) <= 32765)%Z -> lookups_ok w h ps.
Proof.
  intros S F L. assert (S' : size_ok w h) by (unfold small_size, size_ok in *; lia).
  destruct (new_delaunay_ok w h S') as (d & E & O). unfold lookups_ok. rewrite E.
  apply (small_finds_from w h ps S [] d O F). cbn [length]. lia.
Qed.
