(** Proofs for the rasterisers, part 1: float rows, block rasteriser = line rasteriser. *)
From Coq Require Import ZArith Reals List Bool Lia Lra Permutation Psatz.
From Flocq Require Import Core IEEE754.BinarySingleNaN.
From Verif Require Import GoNum FloatLemmas M_Norm M_Geom S_Geom M_Raster S_Raster.
Import ListNotations.
Open Scope Z_scope.

(* ------------------------------------------------------------------ *)
(** * zfor *)

Lemma zfor_In lo hi i : In i (zfor lo hi) <-> lo <= i < hi.
Proof.
  unfold zfor. rewrite in_map_iff. split.
  - intros (k & <- & H). apply in_seq in H. lia.
  - intros H. exists (Z.to_nat (i - lo)). split; [lia|]. apply in_seq. lia.
Qed.

Lemma zfor_nil lo hi : hi <= lo -> zfor lo hi = [].
Proof. intros H. unfold zfor. replace (Z.to_nat (hi - lo)) with O by lia. reflexivity. Qed.

Lemma zfor_cons lo hi : lo < hi -> zfor lo hi = lo :: zfor (lo + 1) hi.
Proof.
  intros H. unfold zfor. replace (Z.to_nat (hi - lo)) with (S (Z.to_nat (hi - (lo + 1)))) by lia.
  cbn [seq map]. f_equal; [lia|]. rewrite <- seq_shift, map_map. apply map_ext. intros; lia.
Qed.

Lemma zfor_app lo mid hi : lo <= mid <= hi -> zfor lo hi = zfor lo mid ++ zfor mid hi.
Proof.
  intros H. unfold zfor. replace (Z.to_nat (hi - lo)) with (Z.to_nat (mid - lo) + Z.to_nat (hi - mid))%nat by lia.
  rewrite seq_app, map_app. f_equal. rewrite Nat.add_0_l.
  replace (Z.to_nat (mid - lo)) with (Z.to_nat (mid - lo) + 0)%nat by lia.
  set (n := Z.to_nat (mid - lo)). assert (Hn : lo + Z.of_nat n = mid) by (unfold n; lia). clearbody n.
  generalize (Z.to_nat (hi - mid)). generalize 0%nat as s. intros s k. revert s.
  induction k as [|k IH]; intros s; [reflexivity|]. cbn [seq map]. f_equal; [lia|].
  rewrite <- IH. f_equal. f_equal. lia.
Qed.

Lemma zfor_NoDup lo hi : NoDup (zfor lo hi).
Proof.
  unfold zfor. apply FinFun.Injective_map_NoDup; [|apply seq_NoDup]. intros a b H. lia.
Qed.

Lemma zfor_shift lo hi c : map (fun i => i + c) (zfor lo hi) = zfor (lo + c) (hi + c).
Proof.
  unfold zfor. rewrite map_map. replace (hi + c - (lo + c)) with (hi - lo) by lia. apply map_ext. intros; lia.
Qed.

(* ------------------------------------------------------------------ *)
(** * Counting pixels *)

Definition b2z (b : bool) : Z := if b then 1 else 0.

Lemma count_app {A} f (l l' : list A) : count f (l ++ l') = count f l + count f l'.
Proof. unfold count. rewrite filter_app, app_length. lia. Qed.
Lemma count_nil {A} (f : A -> bool) : count f [] = 0. Proof. reflexivity. Qed.
Lemma count_cons {A} f (a : A) l : count f (a :: l) = b2z (f a) + count f l.
Proof. unfold count, b2z. cbn [filter]. destruct (f a); cbn [length]; lia. Qed.
Lemma count_nonneg {A} (f : A -> bool) l : 0 <= count f l.
Proof. unfold count. lia. Qed.

Lemma count_row f y lo hi x0 y0 : (forall a, f a = pixel_eqb (x0, y0) a) ->
  count f (map (fun x => (x, y)) (zfor lo hi)) = b2z ((y0 =? y) && (lo <=? x0) && (x0 <? hi)).
Proof.
  intros Hf. destruct (Z.le_gt_cases hi lo) as [H|H].
  { rewrite zfor_nil by exact H. cbn [map]. rewrite count_nil.
    destruct (Z.leb_spec lo x0), (Z.ltb_spec x0 hi); try lia; destruct (y0 =? y); reflexivity. }
  assert (Hk : exists k, hi = lo + Z.of_nat k) by (exists (Z.to_nat (hi - lo)); lia).
  destruct Hk as [k ->]. clear H. revert lo. induction k as [|k IH]; intros lo.
  - rewrite zfor_nil by lia. cbn [map]. rewrite count_nil.
    destruct (Z.leb_spec lo x0), (Z.ltb_spec x0 (lo + Z.of_nat 0)); try lia; destruct (y0 =? y); reflexivity.
  - rewrite zfor_cons by lia. cbn [map]. rewrite count_cons, Hf.
    replace (lo + Z.of_nat (S k)) with (lo + 1 + Z.of_nat k) by lia. rewrite IH.
    unfold pixel_eqb. cbn [fst snd]. unfold b2z.
    destruct (Z.eqb_spec x0 lo), (Z.eqb_spec y0 y), (Z.leb_spec (lo + 1) x0), (Z.leb_spec lo x0), (Z.ltb_spec x0 (lo + 1 + Z.of_nat k));
      cbn [andb]; lia.
Qed.

(** Number of pixels equal to (x,y) among the events' pixels. *)
Definition cov (bs x y : Z) (l : list event) : Z := count (pixel_eqb (x, y)) (flat_map (event_pixels bs) l).

Lemma cov_app bs x y l l' : cov bs x y (l ++ l') = cov bs x y l + cov bs x y l'.
Proof. unfold cov. rewrite flat_map_app, count_app. reflexivity. Qed.
Lemma cov_nil bs x y : cov bs x y [] = 0. Proof. reflexivity. Qed.
Lemma cov_cons bs x y e l : cov bs x y (e :: l) = cov bs x y [e] + cov bs x y l.
Proof. rewrite <- cov_app. reflexivity. Qed.

Lemma cov_line bs x y x0 x1 r : cov bs x y [Line x0 x1 r] = b2z ((y =? r) && (x0 <=? x) && (x <? x1)).
Proof. unfold cov. cbn [flat_map event_pixels]. rewrite app_nil_r. apply count_row. reflexivity. Qed.

(** Sum over rows: only row [y] contributes. *)
Lemma cov_rows bs x y (L R : Z -> Z) lo hi :
  cov bs x y (map (fun i => Line (L i) (R i) i) (zfor lo hi)) =
  b2z ((lo <=? y) && (y <? hi) && (L y <=? x) && (x <? R y)).
Proof.
  destruct (Z.le_gt_cases hi lo) as [H|H].
  { rewrite zfor_nil by exact H. cbn [map]. rewrite cov_nil.
    destruct (Z.leb_spec lo y), (Z.ltb_spec y hi); try lia; reflexivity. }
  assert (Hk : exists k, hi = lo + Z.of_nat k) by (exists (Z.to_nat (hi - lo)); lia).
  destruct Hk as [k ->]. clear H. revert lo. induction k as [|k IH]; intros lo.
  - rewrite zfor_nil by lia. cbn [map]. rewrite cov_nil.
    destruct (Z.leb_spec lo y), (Z.ltb_spec y (lo + Z.of_nat 0)); try lia; reflexivity.
  - rewrite zfor_cons by lia. cbn [map]. rewrite cov_cons, cov_line.
    replace (lo + Z.of_nat (S k)) with (lo + 1 + Z.of_nat k) by lia. rewrite IH.
    destruct (Z.eqb_spec y lo) as [->|N].
    + destruct (Z.leb_spec (lo + 1) lo); [lia|]. destruct (Z.leb_spec lo lo); [|lia].
      destruct (Z.ltb_spec lo (lo + 1 + Z.of_nat k)); [|lia]. cbn [andb]. unfold b2z.
      destruct (L lo <=? x), (x <? R lo); reflexivity.
    + unfold b2z. destruct (Z.leb_spec lo y), (Z.leb_spec (lo + 1) y), (Z.ltb_spec y (lo + 1 + Z.of_nat k)); try lia;
        cbn [andb]; lia.
Qed.

(** The same for rows visited downwards from [i]. *)
Lemma cov_rows_down bs x y (L R : Z -> Z) i n :
  cov bs x y (map (fun k => Line (L (i - k)) (R (i - k)) (i - k)) (zfor 0 n)) =
  b2z ((i - n <? y) && (y <=? i) && (L y <=? x) && (x <? R y)).
Proof.
  destruct (Z.le_gt_cases n 0) as [H|H].
  { rewrite zfor_nil by exact H. cbn [map]. rewrite cov_nil.
    destruct (Z.ltb_spec (i - n) y), (Z.leb_spec y i); try lia; reflexivity. }
  assert (Hk : exists k, n = Z.of_nat k) by (exists (Z.to_nat n); lia).
  destruct Hk as [k ->]. clear H. revert i. induction k as [|k IH]; intros i.
  - rewrite zfor_nil by lia. cbn [map]. rewrite cov_nil.
    destruct (Z.ltb_spec (i - Z.of_nat 0) y), (Z.leb_spec y i); try lia; reflexivity.
  - rewrite zfor_cons by lia. cbn [map]. rewrite cov_cons, cov_line.
    replace (zfor (0 + 1) (Z.of_nat (S k))) with (map (fun j => j + 1) (zfor 0 (Z.of_nat k)))
      by (rewrite zfor_shift; f_equal; lia).
    rewrite map_map.
    rewrite (map_ext _ (fun k => Line (L (i - 1 - k)) (R (i - 1 - k)) (i - 1 - k)))
      by (intros j; replace (i - (j + 1)) with (i - 1 - j) by lia; reflexivity).
    rewrite IH. replace (i - 0) with i by lia.
    destruct (Z.eqb_spec y i) as [->|N].
    + destruct (Z.leb_spec i (i - 1)); [lia|]. destruct (Z.leb_spec i i); [|lia].
      destruct (Z.ltb_spec (i - Z.of_nat (S k)) i); [|lia]. rewrite andb_false_r. cbn [andb]. unfold b2z.
      destruct (L i <=? x), (x <? R i); reflexivity.
    + unfold b2z. destruct (Z.ltb_spec (i - 1 - Z.of_nat k) y), (Z.ltb_spec (i - Z.of_nat (S k)) y), (Z.leb_spec y i), (Z.leb_spec y (i - 1)); try lia;
        cbn [andb]; lia.
Qed.

Lemma cov_block bs x y bx by_ : cov bs x y [Block bx by_] =
  b2z ((by_ <=? y) && (y <? by_ + bs) && (bx <=? x) && (x <? bx + bs)).
Proof.
  pose proof (cov_rows bs x y (fun _ => bx) (fun _ => bx + bs) by_ (by_ + bs)) as E. cbn beta in E. rewrite <- E.
  unfold cov. cbn [flat_map event_pixels]. rewrite app_nil_r. clear E. apply (f_equal (count _)).
  induction (zfor by_ (by_ + bs)) as [|a l IH]; [reflexivity|]. cbn [flat_map map event_pixels].
  rewrite IH. reflexivity.
Qed.

Lemma perm_of_cov bs l l' : (forall x y, cov bs x y l = cov bs x y l') ->
  Permutation (flat_map (event_pixels bs) l) (flat_map (event_pixels bs) l').
Proof.
  intros H.
  assert (D : forall a b : Z * Z, {a = b} + {a <> b}) by (intros; decide equality; apply Z.eq_dec).
  apply (Permutation_count_occ D). intros [x y]. specialize (H x y). unfold cov in H.
  assert (E : forall m, Z.of_nat (count_occ D m (x, y)) = count (pixel_eqb (x, y)) m).
  { induction m as [|[a b] m IH]; [reflexivity|]. rewrite count_cons. cbn [count_occ].
    unfold pixel_eqb at 1. cbn [fst snd].
    destruct (D (a, b) (x, y)) as [E|N].
    - injection E as -> ->. rewrite !Z.eqb_refl. cbn [andb b2z]. lia.
    - destruct (Z.eqb_spec x a) as [->|]; [destruct (Z.eqb_spec y b) as [->|]|]; cbn [andb b2z]; try lia; congruence. }
  rewrite <- !E in H. lia.
Qed.

(* ------------------------------------------------------------------ *)
(** * Float rows *)
Local Open Scope R_scope.

Definition okb (b : f64) : Prop := fin b /\ Rabs (R64 b) <= 16777216.
Definition okm (m : f64) : Prop := fin m /\ Rabs (R64 m) <= 33554432.

Lemma okb_Z z : (Z.abs z <= 2 ^ 24)%Z -> okb (f64_of_Z z).
Proof.
  intros H. destruct (of_Z_R z) as [A B]; [lia|]. split; [exact A|]. rewrite B, <- abs_IZR. apply IZR_le. exact H.
Qed.

Lemma bp n : (0 <= n)%Z -> bpow radix2 n = IZR (2 ^ n). Proof. apply bpow_IZR. Qed.

Lemma slope_R dx dy : (Z.abs dx <= 2 ^ 25)%Z -> (1 <= Z.abs dy <= 2 ^ 25)%Z ->
  fin (slope dx dy) /\ R64 (slope dx dy) = rnd (IZR dx / IZR dy).
Proof.
  intros Hx Hy. destruct (of_Z_R dx) as [A1 B1]; [lia|]. destruct (of_Z_R dy) as [A2 B2]; [lia|].
  assert (N : IZR dy <> 0) by (apply IZR_neq; lia).
  destruct (fdiv_R (f64_of_Z dx) (f64_of_Z dy) A1 A2) as [A B].
  - now rewrite B2.
  - rewrite B1, B2. apply Rle_trans with (bpow radix2 25); [|apply bpow_le; lia].
    rewrite bp by lia. unfold Rdiv. rewrite Rabs_mult, Rabs_inv, <- !abs_IZR.
    assert (1 <= IZR (Z.abs dy)) by (apply IZR_le; lia).
    apply Rmult_le_reg_r with (IZR (Z.abs dy)); [lra|]. rewrite Rmult_assoc, Rinv_l by lra.
    rewrite Rmult_1_r. assert (IZR (Z.abs dx) <= IZR (2 ^ 25)) by (apply IZR_le; lia).
    assert (0 <= IZR (2 ^ 25)) by (apply IZR_le; lia). nra.
  - unfold slope. rewrite B1, B2 in B. auto.
Qed.

Lemma quot_bound dx dy k : (Z.abs dx <= k)%Z -> (1 <= Z.abs dy)%Z -> Rabs (IZR dx / IZR dy) <= IZR k.
Proof.
  intros Hx Hy. unfold Rdiv. rewrite Rabs_mult, Rabs_inv, <- !abs_IZR.
  assert (1 <= IZR (Z.abs dy)) by (apply IZR_le; lia).
  apply Rmult_le_reg_r with (IZR (Z.abs dy)); [lra|]. rewrite Rmult_assoc, Rinv_l by lra.
  rewrite Rmult_1_r. assert (IZR (Z.abs dx) <= IZR k) by (apply IZR_le; lia).
  assert (0 <= IZR k) by (apply IZR_le; lia). nra.
Qed.

Lemma okm_slope dx dy : (Z.abs dx <= 2 ^ 25)%Z -> (1 <= Z.abs dy <= 2 ^ 25)%Z -> okm (slope dx dy).
Proof.
  intros Hx Hy. destruct (slope_R dx dy Hx Hy) as [A B]. split; [exact A|]. rewrite B.
  apply (rnd_abs_le_Z _ (2 ^ 25)); [lia|]. apply quot_bound; lia.
Qed.

(** Real value of a row. *)
Definition linR (m b : f64) (d : Z) : R := rnd (rnd (R64 m * IZR d) + R64 b).

Lemma lin_R m b d : okm m -> okb b -> (Z.abs d <= 2 ^ 26)%Z ->
  fin (lin m b d) /\ R64 (lin m b d) = linR m b d /\ Rabs (linR m b d) <= IZR (2 ^ 52).
Proof.
  intros [Fm Bm] [Fb Bb] Hd. destruct (of_Z_R d) as [Fd Rd]; [lia|].
  assert (Bd : Rabs (IZR d) <= IZR (2 ^ 26)) by (rewrite <- abs_IZR; apply IZR_le; exact Hd).
  assert (P : Rabs (R64 m * R64 (f64_of_Z d)) <= IZR (2 ^ 51)).
  { rewrite Rd, Rabs_mult. replace (IZR (2 ^ 51)) with (33554432 * IZR (2 ^ 26)) by (rewrite <- mult_IZR; f_equal; lia).
    apply Rmult_le_compat; auto using Rabs_pos. }
  destruct (fmul_R m (f64_of_Z d) Fm Fd) as [Fp Rp].
  { eapply Rle_trans; [exact P|]. rewrite <- (bp 51) by lia. apply bpow_le; lia. }
  assert (P2 : Rabs (R64 (fmul m (f64_of_Z d))) <= IZR (2 ^ 51)).
  { rewrite Rp. apply rnd_abs_le_Z; [lia|exact P]. }
  assert (S : Rabs (R64 (fmul m (f64_of_Z d)) + R64 b) <= IZR (2 ^ 52)).
  { eapply Rle_trans; [apply Rabs_triang|]. replace (IZR (2 ^ 52)) with (IZR (2 ^ 51) + IZR (2 ^ 51)) by (rewrite <- plus_IZR; f_equal; lia).
    apply Rplus_le_compat; [exact P2|]. eapply Rle_trans; [exact Bb|]. apply IZR_le; lia. }
  destruct (fadd_R (fmul m (f64_of_Z d)) b Fp Fb) as [Fs Rs].
  { eapply Rle_trans; [exact S|]. rewrite <- (bp 52) by lia. apply bpow_le; lia. }
  split; [exact Fs|]. unfold linR. rewrite <- Rd, <- Rp, <- Rs. split; [reflexivity|].
  change (lin m b d) with (fadd (fmul m (f64_of_Z d)) b).
  rewrite Rs. apply rnd_abs_le_Z; [lia|exact S].
Qed.

Lemma linR_mono m b d d' : R64 m * IZR d <= R64 m * IZR d' -> linR m b d <= linR m b d'.
Proof. intros H. unfold linR. apply rnd_le. apply Rplus_le_compat_r. apply rnd_le. exact H. Qed.

Lemma linR_0 m b : linR m b 0 = R64 b.
Proof. unfold linR. rewrite Rmult_0_r, rnd_0, Rplus_0_l. apply rnd_R64. Qed.

Lemma linR_between m b d1 d d2 : (d1 <= d <= d2)%Z \/ (d2 <= d <= d1)%Z ->
  Rmin (linR m b d1) (linR m b d2) <= linR m b d <= Rmax (linR m b d1) (linR m b d2).
Proof.
  assert (G : forall d1 d d2, (d1 <= d <= d2)%Z ->
    linR m b d1 <= linR m b d <= linR m b d2 \/ linR m b d2 <= linR m b d <= linR m b d1).
  { clear. intros d1 d d2 [H1 H2]. apply IZR_le in H1, H2. destruct (Rle_lt_dec 0 (R64 m)) as [S|S]; [left|right];
    split; apply linR_mono; nra. }
  intros [H|H]; destruct (G _ _ _ H) as [[A B]|[A B]];
   (split; [apply Rmin_case_strong|apply Rmax_case_strong]; lra).
Qed.

Lemma fmax_R x y : fin x -> fin y -> fin (fmax x y) /\ R64 (fmax x y) = Rmax (R64 x) (R64 y).
Proof.
  intros Fx Fy. unfold fmax. destruct (is_inf false x || is_inf false y) eqn:E1.
  { destruct x, y; discriminate. }
  destruct (is_nan x || is_nan y) eqn:E2. { destruct x, y; discriminate. }
  destruct (is_zero x && is_zero y) eqn:E3.
  { destruct x, y; try discriminate. cbn. rewrite Rmax_left by lra. destruct s; auto. }
  rewrite (flt_R y x Fy Fx). destruct (Rlt_bool_spec (R64 y) (R64 x)).
  - rewrite Rmax_left by lra. auto.
  - rewrite Rmax_right by lra. auto.
Qed.
Lemma fmin_R x y : fin x -> fin y -> fin (fmin x y) /\ R64 (fmin x y) = Rmin (R64 x) (R64 y).
Proof.
  intros Fx Fy. unfold fmin. destruct (is_inf true x || is_inf true y) eqn:E1.
  { destruct x, y; discriminate. }
  destruct (is_nan x || is_nan y) eqn:E2. { destruct x, y; discriminate. }
  destruct (is_zero x && is_zero y) eqn:E3.
  { destruct x, y; try discriminate. cbn. rewrite Rmin_left by lra. destruct s; auto. }
  rewrite (flt_R x y Fx Fy). destruct (Rlt_bool_spec (R64 x) (R64 y)).
  - rewrite Rmin_left by lra. auto.
  - rewrite Rmin_right by lra. auto.
Qed.

(** Truncation. *)
Lemma trunc_lt_IZR (z : Z) r : IZR z < r -> (z <= Ztrunc r)%Z.
Proof. intros H. rewrite <- (Ztrunc_IZR z). apply Ztrunc_le. lra. Qed.
Lemma trunc_gt r : r - 1 < IZR (Ztrunc r).
Proof.
  unfold Ztrunc. destruct (Rlt_bool_spec r 0).
  - pose proof (Zceil_ub r). lra.
  - pose proof (Zfloor_ub r). lra.
Qed.
Lemma trunc_lt r : IZR (Ztrunc r) < r + 1.
Proof.
  unfold Ztrunc. destruct (Rlt_bool_spec r 0).
  - unfold Zceil. pose proof (Zfloor_ub (- r)). rewrite opp_IZR. lra.
  - pose proof (Zfloor_lb r). lra.
Qed.

Lemma go_int_lin m b d : okm m -> okb b -> (Z.abs d <= 2 ^ 26)%Z ->
  go_int (lin m b d) = Ztrunc (linR m b d).
Proof.
  intros Hm Hb Hd. destruct (lin_R m b d Hm Hb Hd) as (F & E & B). rewrite <- E in *.
  apply (go_int_small _ (2 ^ 52) F B). lia.
Qed.

(* ------------------------------------------------------------------ *)
(** * The run of blocks in one band *)
Lemma block_run_spec fuel bs minX yb x :
  (1 <= bs <= 2 ^ 24)%Z -> fin minX -> Rabs (R64 minX) <= IZR (2 ^ 52) -> (Z.abs x <= 2 ^ 52)%Z ->
  (1 <= fuel)%nat -> R64 minX < IZR x + IZR (Z.of_nat fuel) ->
  exists l x', block_run fuel bs minX yb x = Some (l, x') /\ (x <= x')%Z /\
    (x = x' \/ IZR x' < R64 minX) /\
    forall px py, cov bs px py l = b2z ((yb <=? py) && (py <? yb + bs) && (x <=? px) && (px <? x'))%Z.
Proof.
  intros Hbs Fm Bm. revert x. induction fuel as [|fuel IH]; intros x Hx H1 Hf; [lia|].
  cbn [block_run]. destruct (of_Z_R (x + bs)) as [A B]; [lia|].
  rewrite (flt_R _ _ A Fm), B. destruct (Rlt_bool_spec (IZR (x + bs)) (R64 minX)) as [L|L].
  - assert (Hb1 : 1 <= IZR bs) by (apply IZR_le; lia).
    rewrite plus_IZR in L. rewrite Nat2Z.inj_succ, succ_IZR in Hf.
    destruct (IH (x + bs)%Z) as (l & x' & E & G & O & C).
    + apply Rabs_le_inv in Bm. assert (IZR (x + bs) < IZR (2 ^ 52)) by (rewrite plus_IZR; lra).
      apply lt_IZR in H. lia.
    + destruct fuel; [|lia]. cbn in Hf. lra.
    + rewrite plus_IZR. lra.
    + rewrite E. exists (Block x yb :: l), x'. split; [reflexivity|]. split; [lia|]. split.
      * right. destruct O as [<-|O]; [rewrite plus_IZR; lra|exact O].
      * intros px py. rewrite cov_cons, cov_block, C. unfold b2z.
        destruct (Z.leb_spec yb py), (Z.ltb_spec py (yb + bs)), (Z.leb_spec x px), (Z.leb_spec (x + bs) px),
          (Z.ltb_spec px (x + bs)), (Z.ltb_spec px x'); cbn [andb]; lia.
  - exists [], x. split; [reflexivity|]. split; [lia|]. split; [now left|].
    intros px py. rewrite cov_nil. unfold b2z.
    destruct (Z.leb_spec x px), (Z.ltb_spec px x); try lia; rewrite ?andb_false_r; reflexivity.
Qed.

(** One band: rows between depths [da] and [db] (as seen by left and right edge). *)
Lemma band_spec fuel bs m0 b0 m1 b1 d0 d0' d1 d1' yb :
  (1 <= bs <= 2 ^ 24)%Z -> okm m0 -> okb b0 -> okm m1 -> okb b1 ->
  (Z.abs d0 <= 2 ^ 26)%Z -> (Z.abs d0' <= 2 ^ 26)%Z -> (Z.abs d1 <= 2 ^ 26)%Z -> (Z.abs d1' <= 2 ^ 26)%Z ->
  (2 ^ 54 <= Z.of_nat fuel)%Z ->
  let maxX := two_max m0 b0 d0 d0' in
  let minX := two_min m1 b1 d1 d1' in
  fle minX (f64_of_Z (go_int maxX + bs)) = false ->
  exists l x', block_run fuel bs minX yb (go_int maxX) = Some (l, x') /\
    (forall px py, cov bs px py l = b2z ((yb <=? py) && (py <? yb + bs) && (go_int maxX <=? px) && (px <? x'))%Z) /\
    (go_int maxX <= x')%Z /\
    (forall d, (d0 <= d <= d0' \/ d0' <= d <= d0)%Z -> (go_int (lin m0 b0 d) <= go_int maxX)%Z) /\
    (forall d, (d1 <= d <= d1' \/ d1' <= d <= d1)%Z -> (x' <= go_int (lin m1 b1 d))%Z) /\
    IZR (go_int maxX + bs) < R64 minX.
Proof.
  intros Hbs Hm0 Hb0 Hm1 Hb1 D0 D0' D1 D1' Hfuel maxX minX Hbrk.
  destruct (lin_R m0 b0 d0 Hm0 Hb0 D0) as (F1 & E1 & B1).
  destruct (lin_R m0 b0 d0' Hm0 Hb0 D0') as (F2 & E2 & B2).
  destruct (lin_R m1 b1 d1 Hm1 Hb1 D1) as (F3 & E3 & B3).
  destruct (lin_R m1 b1 d1' Hm1 Hb1 D1') as (F4 & E4 & B4).
  destruct (fmax_R _ _ F1 F2) as [FX EX]. destruct (fmin_R _ _ F3 F4) as [FN EN].
  fold (two_max m0 b0 d0 d0') in FX, EX. fold (two_min m1 b1 d1 d1') in FN, EN. fold maxX in FX, EX. fold minX in FN, EN.
  rewrite E1, E2 in EX. rewrite E3, E4 in EN.
  assert (BX : Rabs (R64 maxX) <= IZR (2 ^ 52)) by (rewrite EX; apply Rmax_case; assumption).
  assert (BN : Rabs (R64 minX) <= IZR (2 ^ 52)) by (rewrite EN; apply Rmin_case; assumption).
  pose proof (go_int_small maxX (2 ^ 52) FX BX ltac:(lia)) as GX.
  assert (HX : (Z.abs (go_int maxX) <= 2 ^ 52)%Z) by (rewrite GX; apply Ztrunc_bound; exact BX).
  destruct (block_run_spec fuel bs minX yb (go_int maxX)) as (l & x' & E & G & O & C); auto; try lia.
  { apply Rabs_le_inv in BN. apply Rlt_le_trans with (IZR (2 ^ 52 + 1)); [rewrite plus_IZR; lra|].
    rewrite <- plus_IZR. apply IZR_le. lia. }
  destruct (of_Z_R (go_int maxX + bs)) as [A B]; [lia|].
  rewrite (fle_R _ _ FN A), B in Hbrk. destruct (Rle_bool_spec (R64 minX) (IZR (go_int maxX + bs))) as [L|L]; [discriminate|].
  exists l, x'. split; [exact E|]. split; [exact C|]. split; [exact G|]. split; [|split; [|exact L]].
  - intros d Hd. assert (Hd' : (Z.abs d <= 2 ^ 26)%Z) by lia. rewrite (go_int_lin _ _ _ Hm0 Hb0 Hd'), GX. apply Ztrunc_le. rewrite EX.
    apply linR_between. lia.
  - intros d Hd. assert (Hd' : (Z.abs d <= 2 ^ 26)%Z) by lia. rewrite (go_int_lin _ _ _ Hm1 Hb1 Hd'). apply trunc_lt_IZR.
    assert (R64 minX <= linR m1 b1 d) by (rewrite EN; apply linR_between; lia).
    destruct O as [<-|O]; [|lra]. rewrite plus_IZR in L. assert (1 <= IZR bs) by (apply IZR_le; lia). lra.
Qed.

(** The upward loop. *)
Lemma up_blocks_spec bs y2 m0 b0 m1 b1 :
  (1 <= bs <= 2 ^ 24)%Z -> okm m0 -> okb b0 -> okm m1 -> b1 = b0 -> R64 m0 <= R64 m1 ->
  forall fuel i, (i <= y2 + 2 ^ 25)%Z -> (2 ^ 55 <= Z.of_nat fuel + y2 - i)%Z -> (y2 - 1 <= i)%Z ->
  exists l i', up_blocks fuel bs y2 m0 b0 m1 b1 i = Some (l, i') /\ (Z.min y2 i <= i' <= i)%Z /\
    forall x y, cov bs x y l =
      b2z ((i' <? y) && (y <=? i) && (go_int (lin m0 b0 (y - y2)) <=? x) && (x <? go_int (lin m1 b1 (y - y2))))%Z.
Proof.
  intros Hbs Hm0 Hb0 Hm1 -> Hm. induction fuel as [|fuel IH]; intros i Hi Hf Hlo; [lia|].
  cbn [up_blocks]. destruct (i >? y2)%Z eqn:Ei.
  2:{ exists [], i. split; [reflexivity|]. split; [lia|]. intros x y. rewrite cov_nil. unfold b2z.
      destruct (Z.ltb_spec i y), (Z.leb_spec y i); try lia; reflexivity. }
  assert (Hgt : (y2 < i)%Z) by lia.
  destruct (fle _ _) eqn:Eb.
  { exists [], i. split; [reflexivity|]. split; [lia|]. intros x y. rewrite cov_nil. unfold b2z.
    destruct (Z.ltb_spec i y), (Z.leb_spec y i); try lia; reflexivity. }
  destruct (band_spec (S fuel) bs m0 b0 m1 b0 (i - y2) (i - bs + 1 - y2) (i - y2) (i - bs + 1 - y2) (i - bs + 1))
    as (l & x' & E & C & Gx & GL & GR & Hlt); auto; try lia.
  set (maxX := two_max _ _ _ _) in *. set (minX := two_min _ _ _ _) in *.
  (* the band lies below the apex row *)
  assert (Htop : (y2 < i - bs + 1)%Z).
  { apply Z.nle_gt. intros Hle.
    assert (Dt : (Z.abs (i - bs + 1 - y2) <= 2 ^ 26)%Z) by lia. assert (Di : (Z.abs (i - y2) <= 2 ^ 26)%Z) by lia.
    destruct (lin_R m0 b0 _ Hm0 Hb0 Dt) as (F1 & E1 & B1). destruct (lin_R m1 b0 _ Hm1 Hb0 Dt) as (F2 & E2 & B2).
    destruct (lin_R m0 b0 _ Hm0 Hb0 Di) as (F3 & E3 & B3). destruct (lin_R m1 b0 _ Hm1 Hb0 Di) as (F4 & E4 & B4).
    destruct (fmax_R _ _ F3 F1) as [FX EX]. destruct (fmin_R _ _ F4 F2) as [FN EN].
    fold (two_max m0 b0 (i - y2) (i - bs + 1 - y2)) in FX, EX. fold (two_min m1 b0 (i - y2) (i - bs + 1 - y2)) in FN, EN.
    fold maxX in FX, EX. fold minX in FN, EN.
    assert (L1 : linR m1 b0 (i - bs + 1 - y2) <= linR m0 b0 (i - bs + 1 - y2)).
    { unfold linR. apply rnd_le, Rplus_le_compat_r, rnd_le. assert (IZR (i - bs + 1 - y2) <= 0) by (apply IZR_le; lia). nra. }
    assert (L2 : R64 minX <= R64 maxX).
    { rewrite EX, EN, E1, E2. eapply Rle_trans; [apply Rmin_r|]. eapply Rle_trans; [exact L1|apply Rmax_r]. }
    assert (BX : Rabs (R64 maxX) <= IZR (2 ^ 52)) by (rewrite EX, E1, E3; apply Rmax_case; assumption).
    pose proof (go_int_small maxX (2 ^ 52) FX BX ltac:(lia)) as GX.
    rewrite plus_IZR, GX in Hlt. pose proof (trunc_gt (R64 maxX)).
    assert (1 <= IZR bs) by (apply IZR_le; lia). lra. }
  destruct (IH (i - bs)%Z) as (rest & i' & Er & Hi' & Cr); try lia.
  rewrite E, Er. eexists _, i'. split; [reflexivity|]. split; [lia|].
  intros x y. rewrite !cov_app, C, Cr.
  rewrite (cov_rows_down bs x y (fun j => go_int (lin m0 b0 (j - y2))) (fun _ => go_int maxX) i bs).
  rewrite (cov_rows_down bs x y (fun _ => x') (fun j => go_int (lin m1 b0 (j - y2))) i bs).
  destruct (Z.le_gt_cases y i) as [Hy|Hy].
  2:{ unfold b2z. destruct (Z.leb_spec y i), (Z.leb_spec y (i - bs)), (Z.ltb_spec y (i - bs + 1 + bs)); try lia.
      rewrite ?andb_false_r; cbn [andb]; rewrite ?andb_false_r; reflexivity. }
  destruct (Z.le_gt_cases y (i - bs)) as [Hy2|Hy2].
  - unfold b2z. destruct (Z.leb_spec y i), (Z.leb_spec y (i - bs)), (Z.ltb_spec (i - bs) y), (Z.leb_spec (i - bs + 1) y); try lia.
    cbn [andb]. rewrite ?andb_true_r. lia.
  - specialize (GL (y - y2)%Z ltac:(lia)). specialize (GR (y - y2)%Z ltac:(lia)).
    unfold b2z. destruct (Z.leb_spec y i), (Z.leb_spec y (i - bs)), (Z.ltb_spec (i - bs) y), (Z.leb_spec (i - bs + 1) y),
      (Z.ltb_spec y (i - bs + 1 + bs)), (Z.ltb_spec i' y); try lia. cbn [andb].
    destruct (Z.leb_spec (go_int (lin m0 b0 (y - y2))) x), (Z.ltb_spec x (go_int maxX)), (Z.leb_spec (go_int maxX) x), (Z.ltb_spec x x'),
      (Z.leb_spec x' x), (Z.ltb_spec x (go_int (lin m1 b0 (y - y2)))); cbn [andb]; lia.
Qed.

(** The downward loop. *)
Lemma down_blocks_spec bs y0 y1 m0 b0 d0 m1 b1 d1 :
  (1 <= bs <= 2 ^ 24)%Z -> okm m0 -> okb b0 -> okm m1 -> okb b1 ->
  (0 <= d0 <= 2 ^ 25)%Z -> (0 <= d1 <= 2 ^ 25)%Z -> (y0 <= y1 + 2 ^ 25)%Z ->
  forall fuel i, (y1 <= i)%Z -> (i <= y0)%Z -> (2 ^ 55 <= Z.of_nat fuel + i - y1)%Z ->
  exists l i', down_blocks fuel bs y0 y1 m0 b0 d0 m1 b1 d1 i = Some (l, i') /\ (i <= i' <= y0)%Z /\
    forall x y, cov bs x y l =
      b2z ((i <=? y) && (y <? i') && (go_int (lin m0 b0 (y - y1 + d0)) <=? x) && (x <? go_int (lin m1 b1 (y - y1 + d1))))%Z.
Proof.
  intros Hbs Hm0 Hb0 Hm1 Hb1 Hd0 Hd1 Hy0. induction fuel as [|fuel IH]; intros i Hi Hi0 Hf; [lia|].
  cbn [down_blocks]. destruct (Z.ltb_spec (i + bs) y0) as [Hlt0|Hge].
  2:{ exists [], i. split; [reflexivity|]. split; [lia|]. intros x y. rewrite cov_nil. unfold b2z.
      destruct (Z.leb_spec i y), (Z.ltb_spec y i); try lia; reflexivity. }
  destruct (fle _ _) eqn:Eb.
  { exists [], i. split; [reflexivity|]. split; [lia|]. intros x y. rewrite cov_nil. unfold b2z.
    destruct (Z.leb_spec i y), (Z.ltb_spec y i); try lia; reflexivity. }
  destruct (band_spec (S fuel) bs m0 b0 m1 b1 (i - y1 + d0) (i + bs - 1 - y1 + d0) (i - y1 + d1) (i + bs - 1 - y1 + d1) i)
    as (l & x' & E & C & Gx & GL & GR & Hlt); auto; try lia.
  set (maxX := two_max _ _ _ _) in *. set (minX := two_min _ _ _ _) in *.
  destruct (IH (i + bs)%Z) as (rest & i' & Er & Hi' & Cr); try lia.
  rewrite E, Er. eexists _, i'. split; [reflexivity|]. split; [lia|].
  intros x y. rewrite !cov_app, C, Cr.
  assert (Z1 : map (fun y => Line (go_int (lin m0 b0 (i + y - y1 + d0))) (go_int maxX) (i + y)) (zfor 0 bs) =
    map (fun j => Line (go_int (lin m0 b0 (j - y1 + d0))) (go_int maxX) j) (zfor i (i + bs))).
  { replace (zfor i (i + bs)) with (map (fun j => j + i)%Z (zfor 0 bs)) by (rewrite zfor_shift; f_equal; lia).
    rewrite map_map. apply map_ext. intros j. replace (j + i)%Z with (i + j)%Z by lia. reflexivity. }
  assert (Z2 : map (fun y => Line x' (go_int (lin m1 b1 (i + y - y1 + d1))) (i + y)) (zfor 0 bs) =
    map (fun j => Line x' (go_int (lin m1 b1 (j - y1 + d1))) j) (zfor i (i + bs))).
  { replace (zfor i (i + bs)) with (map (fun j => j + i)%Z (zfor 0 bs)) by (rewrite zfor_shift; f_equal; lia).
    rewrite map_map. apply map_ext. intros j. replace (j + i)%Z with (i + j)%Z by lia. reflexivity. }
  rewrite Z1, Z2.
  rewrite (cov_rows bs x y (fun j => go_int (lin m0 b0 (j - y1 + d0))) (fun _ => go_int maxX)).
  rewrite (cov_rows bs x y (fun _ => x') (fun j => go_int (lin m1 b1 (j - y1 + d1)))).
  destruct (Z.le_gt_cases i y) as [Hy|Hy].
  2:{ unfold b2z. destruct (Z.leb_spec i y), (Z.leb_spec (i + bs) y); try lia; reflexivity. }
  destruct (Z.le_gt_cases (i + bs) y) as [Hy2|Hy2].
  - unfold b2z. destruct (Z.leb_spec i y), (Z.leb_spec (i + bs) y), (Z.ltb_spec y (i + bs)); try lia.
    cbn [andb]. lia.
  - specialize (GL (y - y1 + d0)%Z ltac:(lia)). specialize (GR (y - y1 + d1)%Z ltac:(lia)).
    unfold b2z. destruct (Z.leb_spec i y), (Z.leb_spec (i + bs) y), (Z.ltb_spec y (i + bs)), (Z.ltb_spec y i'); try lia. cbn [andb].
    destruct (Z.leb_spec (go_int (lin m0 b0 (y - y1 + d0))) x), (Z.ltb_spec x (go_int maxX)), (Z.leb_spec (go_int maxX) x), (Z.ltb_spec x x'),
      (Z.leb_spec x' x), (Z.ltb_spec x (go_int (lin m1 b1 (y - y1 + d1)))); cbn [andb]; lia.
Qed.
Local Close Scope R_scope.
