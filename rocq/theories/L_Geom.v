From Coq Require Import ZArith Reals List Bool Lia Lra.
From Flocq Require Import Core IEEE754.BinarySingleNaN.
From Verif Require Import GoNum FloatLemmas M_Norm M_Geom S_Geom.
Import ListNotations.
Open Scope Z_scope.

(* ---------------- C07: fan ---------------- *)

Lemma fan_from_length p0 prev l : length (fan_from p0 prev l) = length l.
Proof. revert prev; induction l; intros; cbn; auto. Qed.

Lemma fan_from_nth p0 l : forall prev i t, nth_error (fan_from p0 prev l) i = Some t ->
  nth_error l i = Some (ta t) /\ nth_error (prev :: l) i = Some (tb t) /\ tc t = p0.
Proof.
  induction l as [|p l IH]; intros prev i t H; [now destruct i|].
  destruct i; cbn in H.
  - injection H as <-. cbn. auto.
  - apply IH in H. cbn [nth_error]. tauto.
Qed.

Lemma last_app1 {A} (l : list A) a d : last (l ++ [a]) d = a.
Proof. induction l as [|x l IH]; [reflexivity|]. cbn [app]. rewrite <- IH at 2. destruct l; reflexivity. Qed.

Lemma last_cons {A} (a : A) l d : last (a :: l) d = last l a.
Proof. revert a d; induction l as [|b l IH]; intros; [reflexivity|]. 
  change (last (a :: b :: l) d) with (last (b :: l) d). rewrite IH. symmetry. apply IH. Qed.

Lemma path_sum_cons2 f a b l : path_sum f (a :: b :: l) = f a b + path_sum f (b :: l).
Proof. reflexivity. Qed.

Lemma fan_area_aux p0 l : forall prev,
  sumZ (map (fun t => area2 (tc t) (tb t) (ta t)) (fan_from p0 prev l)) =
  path_sum cross (prev :: l) + cross p0 prev + cross (last l prev) p0.
Proof.
  induction l as [|p l IH]; intros prev.
  - cbn. unfold cross. ring.
  - cbn [fan_from map sumZ ta tb tc]. rewrite IH, (path_sum_cons2 _ prev), last_cons. unfold area2, cross. ring.
Qed.

Lemma fan_area p : sumZ (map (fun t => area2 (tc t) (tb t) (ta t)) (polygon_triangulate p)) = shoelace2 p.
Proof.
  destruct p as [|p0 [|p1 rest]]; try (unfold shoelace2, cross; cbn; ring).
  cbn [polygon_triangulate]. rewrite fan_area_aux. unfold shoelace2. rewrite !last_cons, path_sum_cons2. ring.
Qed.

Lemma fan_length p : length (polygon_triangulate p) = (length p - 2)%nat.
Proof. destruct p as [|p0 [|p1 rest]]; cbn; try reflexivity. rewrite fan_from_length. lia. Qed.

Lemma fan_nth p i t : nth_error (polygon_triangulate p) i = Some t ->
  nth_error p 0 = Some (tc t) /\ nth_error p (i + 1) = Some (tb t) /\ nth_error p (i + 2) = Some (ta t).
Proof.
  destruct p as [|p0 [|p1 rest]]; cbn [polygon_triangulate]; intros H; try (now destruct i).
  apply fan_from_nth in H. destruct H as (A & B & C). rewrite !(Nat.add_comm i). cbn [nth_error Nat.add].
  rewrite C. auto.
Qed.

(* ---------------- C55: shoelace is invariant ---------------- *)

Lemma path_sum_app f l a b : path_sum f (l ++ [a; b]) = path_sum f (l ++ [a]) + f a b.
Proof.
  induction l as [|x l IH]; [cbn; ring|]. cbn [app]. destruct l as [|y l]; cbn [app] in *.
  - cbn. ring.
  - rewrite !path_sum_cons2, IH. ring.
Qed.

Lemma path_sum_snoc f l a b : path_sum f ((a :: l) ++ [b]) = path_sum f (a :: l) + f (last l a) b.
Proof.
  revert a; induction l as [|c l IH]; intros a; [cbn; ring|].
  change ((a :: c :: l) ++ [b]) with (a :: c :: (l ++ [b])). rewrite !path_sum_cons2.
  change (c :: l ++ [b]) with ((c :: l) ++ [b]). rewrite IH, last_cons. ring.
Qed.

Lemma shoelace2_rotate a l : shoelace2 (l ++ [a]) = shoelace2 (a :: l).
Proof.
  destruct l as [|b l]; [reflexivity|]. unfold shoelace2 at 1. cbn [app].
  change (b :: l ++ [a]) with ((b :: l) ++ [a]). rewrite last_app1, path_sum_snoc.
  unfold shoelace2. rewrite path_sum_cons2, !last_cons. ring.
Qed.

Lemma path_sum_rev l : path_sum cross (rev l) = - path_sum cross l.
Proof.
  induction l as [|a l IH]; [reflexivity|]. cbn [rev]. destruct l as [|b l]; [reflexivity|].
  cbn [rev] in *. rewrite <- app_assoc. cbn [app]. rewrite path_sum_app, IH, path_sum_cons2. unfold cross. ring.
Qed.

Lemma last_rev (a : point) l d : last (rev (a :: l)) d = a.
Proof. cbn [rev]. apply last_app1. Qed.

Lemma shoelace2_rev l : shoelace2 (rev l) = - shoelace2 l.
Proof.
  destruct l as [|a l]; [reflexivity|]. unfold shoelace2 at 2.
  remember (rev (a :: l)) as r eqn:E. destruct r as [|b r].
  { apply (f_equal (@length _)) in E. rewrite rev_length in E. discriminate. }
  unfold shoelace2. rewrite E at 1 2. rewrite path_sum_rev, last_rev.
  assert (Hb : b = last (a :: l) a).
  { assert (E' : rev (b :: r) = a :: l) by (rewrite E; apply rev_involutive).
    rewrite <- E' at 1. rewrite last_rev. reflexivity. }
  rewrite Hb. unfold cross. ring.
Qed.

Definition translate (dx dy : Z) (p : point) : point := Pt (px p + dx) (py p + dy).

Lemma path_sum_translate dx dy a l :
  path_sum cross (map (translate dx dy) (a :: l)) =
  path_sum cross (a :: l) + dx * (py (last l a) - py a) - dy * (px (last l a) - px a).
Proof.
  revert a; induction l as [|b l IH]; intros a.
  - cbn. ring.
  - change (map (translate dx dy) (a :: b :: l)) with (translate dx dy a :: translate dx dy b :: map (translate dx dy) l).
    rewrite path_sum_cons2. change (translate dx dy b :: map (translate dx dy) l) with (map (translate dx dy) (b :: l)).
    rewrite IH, path_sum_cons2, last_cons. unfold cross, translate. cbn [px py]. ring.
Qed.

Lemma last_map {A B} (f : A -> B) l a : last (map f l) (f a) = f (last l a).
Proof. revert a; induction l as [|b l IH]; intros; [reflexivity|]. cbn [map]. rewrite !last_cons. apply IH. Qed.

Lemma shoelace2_translate dx dy l : shoelace2 (map (translate dx dy) l) = shoelace2 l.
Proof.
  destruct l as [|a l]; [reflexivity|]. unfold shoelace2 at 1. cbn [map].
  change (translate dx dy a :: map (translate dx dy) l) with (map (translate dx dy) (a :: l)) at 1.
  rewrite path_sum_translate, last_cons, last_map. unfold shoelace2. rewrite last_cons.
  unfold cross, translate. cbn [px py]. ring.
Qed.

(* ---------------- C08/C09: rounding ---------------- *)
Open Scope R_scope.

Lemma bpow_half : bpow radix2 (-1) = / 2. Proof. reflexivity. Qed.

Lemma ZnearestA_floor v : 0 <= v -> ZnearestA v = Zfloor (v + / 2).
Proof.
  intros H. symmetry. apply Zfloor_imp.
  unfold Znearest. destruct (Rcompare_spec (v - IZR (Zfloor v)) (/ 2)) as [C|C|C];
    pose proof (Zfloor_lb v); pose proof (Zfloor_ub v); pose proof (Zceil_ub v) as Hc.
  - rewrite plus_IZR. lra.
  - assert (0 <= Zfloor v)%Z by (apply Zfloor_lub; exact H).
    destruct (Z.leb_spec 0 (Zfloor v)); [|lia].
    assert (Ne : IZR (Zfloor v) <> v) by lra. rewrite (Zceil_floor_neq _ Ne), plus_IZR.
    rewrite (plus_IZR (_ + 1)), plus_IZR. lra.
  - assert (Ne : IZR (Zfloor v) <> v) by lra. rewrite (Zceil_floor_neq _ Ne).
    rewrite !plus_IZR. lra.
Qed.

Lemma Ztrunc_floor_pos v : 0 <= v -> Ztrunc v = Zfloor v.
Proof. apply Ztrunc_floor. Qed.

(** fastRound in terms of the rounded sum. *)
Lemma fast_round_R x : fin x -> 0 <= R64 x <= bpow radix2 51 ->
  fast_round x = Zfloor (rnd (R64 x + / 2)).
Proof.
  intros Hf [H0 H1]. unfold fast_round.
  assert (Hb : Rabs (R64 x + R64 fhalf) <= bpow radix2 52).
  { rewrite fhalf_R, Rabs_pos_eq by lra. change 52%Z with (51 + 1)%Z. rewrite bpow_plus.
    change (bpow radix2 1) with 2. assert (1 <= bpow radix2 51) by (change 1 with (bpow radix2 0); apply bpow_le; lia). lra. }
  destruct (fadd_R x fhalf Hf eq_refl) as [F E].
  - eapply Rle_trans; [exact Hb|apply bpow_le; lia].
  - assert (P : 0 <= R64 (fadd x fhalf)).
    { rewrite E, <- rnd_0. apply rnd_le. rewrite fhalf_R. lra. }
    rewrite (go_int_small _ (2 ^ 52)).
    + rewrite Ztrunc_floor_pos by exact P. rewrite E, fhalf_R. reflexivity.
    + exact F.
    + rewrite E. rewrite <- bpow_IZR by lia. apply rnd_abs_le; [lia|exact Hb].
    + lia.
Qed.

Lemma go_int_fround x : fin x -> 0 <= R64 x <= bpow radix2 51 -> go_int (fround x) = Zfloor (R64 x + / 2).
Proof.
  intros Hf [H0 H1]. destruct (fround_R x Hf) as [F E].
  assert (Hz : (0 <= ZnearestA (R64 x) <= 2 ^ 52)%Z).
  { rewrite ZnearestA_floor by exact H0. split.
    - apply Zfloor_lub. lra.
    - apply le_IZR. eapply Rle_trans; [apply Zfloor_lb|]. rewrite <- bpow_IZR by lia.
      change 52%Z with (51 + 1)%Z. rewrite bpow_plus. change (bpow radix2 1) with 2.
      assert (1 <= bpow radix2 51) by (change 1 with (bpow radix2 0); apply bpow_le; lia). lra. }
  rewrite (go_int_small _ (2 ^ 52)); [|exact F| |lia].
  - rewrite E, Ztrunc_IZR. apply ZnearestA_floor, H0.
  - rewrite E, <- abs_IZR. apply IZR_le. lia.
Qed.

(** The exceptional float 0.49999999999999994 = 1/2 - 2^-54. *)
Definition pred_half : f64 := f64_dy (2 ^ 53 - 1) (-54).

Lemma pred_half_R : fin pred_half /\ R64 pred_half = / 2 - bpow radix2 (-54).
Proof.
  unfold pred_half. destruct (f64_dy_R (2 ^ 53 - 1) (-54)) as [F E].
  - rewrite Rabs_pos_eq.
    + eapply Rle_trans with (bpow radix2 53 * bpow radix2 (-54)).
      * apply Rmult_le_compat_r; [apply bpow_ge_0|]. rewrite bpow_IZR by lia. apply IZR_le. lia.
      * rewrite <- bpow_plus. apply bpow_le. lia.
    + apply Rmult_le_pos; [apply IZR_le; lia|apply bpow_ge_0].
  - split; [exact F|]. rewrite E, rnd_dy by lia. rewrite minus_IZR. rewrite <- (bpow_IZR 53) by lia.
    rewrite Rmult_minus_distr_r, <- bpow_plus. change (bpow radix2 (53 + -54)) with (/2). ring.
Qed.

Lemma format_grid (x : f64) e : fin x -> R64 x <> 0 -> (e <= mag radix2 (R64 x))%Z -> (-1074 <= e - 53)%Z ->
  exists m : Z, R64 x = IZR m * bpow radix2 (e - 53).
Proof.
  intros Hf Hn He He2. pose proof (generic_format_B2R 53 1024 x) as G.
  set (c := cexp radix2 (SpecFloat.fexp 53 1024) (R64 x)).
  assert (Hc : (e - 53 <= c)%Z).
  { unfold c, cexp, SpecFloat.fexp, SpecFloat.emin. lia. }
  exists (Ztrunc (scaled_mantissa radix2 (SpecFloat.fexp 53 1024) (R64 x)) * 2 ^ (c - (e - 53)))%Z.
  unfold generic_format, F2R in G. cbn [Fnum Fexp] in G. fold c in G. rewrite G at 1.
  rewrite mult_IZR, <- bpow_IZR by lia. rewrite Rmult_assoc, <- bpow_plus. do 2 f_equal. lia.
Qed.

Lemma rnd_add_half x : fin x -> 0 <= R64 x <= bpow radix2 51 -> x <> pred_half ->
  Zfloor (rnd (R64 x + / 2)) = Zfloor (R64 x + / 2).
Proof.
  intros Hf [H0 H1] Hx. set (n := Zfloor (R64 x + / 2)).
  pose proof (Zfloor_lb (R64 x + / 2)) as L. pose proof (Zfloor_ub (R64 x + / 2)) as U. fold n in L, U.
  assert (Hn : (0 <= n)%Z) by (apply Zfloor_lub; lra).
  assert (B51 : bpow radix2 51 = IZR (2 ^ 51)) by (apply bpow_IZR; lia).
  assert (Hn2 : (n <= 2 ^ 51)%Z).
  { apply Z.lt_succ_r. apply lt_IZR. unfold Z.succ. rewrite plus_IZR, <- B51. lra. }
  apply Zfloor_imp. split.
  { rewrite <- (rnd_Z n) by lia. apply rnd_le. exact L. }
  rewrite plus_IZR.
  destruct (Z.eq_dec n 0) as [En|En].
  - (* v < 1/2 *)
    rewrite En in *. 
    assert (Hs : R64 x <= / 2 - bpow radix2 (-53)).
    { apply Rnot_lt_le. intros Hs. apply Hx.
      assert (Hq : / 4 < R64 x).
      { assert (bpow radix2 (-53) <= bpow radix2 (-2)) by (apply bpow_le; lia).
        change (bpow radix2 (-2)) with (/ 4) in *. lra. }
      assert (Hm : (-1 <= mag radix2 (R64 x))%Z).
      { apply mag_ge_bpow. rewrite Rabs_pos_eq by lra. change (bpow radix2 (-1 - 1)) with (/ 4). lra. }
      destruct (format_grid x (-1) Hf ltac:(lra) Hm ltac:(lia)) as [m E]. change (-1 - 53)%Z with (-54)%Z in E.
      assert (P54 : 0 < bpow radix2 (-54)) by apply bpow_gt_0.
      assert (E53 : bpow radix2 (-53) = 2 * bpow radix2 (-54)).
      { change (-53)%Z with (1 + -54)%Z. rewrite bpow_plus. reflexivity. }
      assert (Eh : / 2 = bpow radix2 53 * bpow radix2 (-54)).
      { rewrite <- bpow_plus. reflexivity. }
      assert (m = 2 ^ 53 - 1)%Z.
      { assert (2 ^ 53 - 2 < m)%Z.
        { apply lt_IZR. rewrite minus_IZR, <- (bpow_IZR 53) by lia.
          apply Rmult_lt_reg_r with (bpow radix2 (-54)); [exact P54|]. lra. }
        assert (m < 2 ^ 53)%Z.
        { apply lt_IZR. rewrite <- (bpow_IZR 53) by lia.
          apply Rmult_lt_reg_r with (bpow radix2 (-54)); [exact P54|]. lra. }
        lia. }
      destruct pred_half_R as [F2 E2]. apply R64_inj_pos; [exact Hf|exact F2| |lra].
      rewrite E, E2, H, minus_IZR, <- (bpow_IZR 53) by lia. lra. }
    assert (R1 : rnd (R64 x + / 2) <= 1 - bpow radix2 (-53)).
    { replace (1 - bpow radix2 (-53)) with (IZR (2 ^ 53 - 1) * bpow radix2 (-53)).
      - rewrite <- rnd_dy by lia. apply rnd_le. rewrite minus_IZR, <- (bpow_IZR 53) by lia.
        rewrite Rmult_minus_distr_r, <- bpow_plus. change (bpow radix2 (53 + -53)) with 1. lra.
      - rewrite minus_IZR, <- (bpow_IZR 53) by lia.
        rewrite Rmult_minus_distr_r, <- bpow_plus. change (bpow radix2 (53 + -53)) with 1. ring. }
    assert (0 < bpow radix2 (-53)) by apply bpow_gt_0. lra.
  - assert (Hv : / 2 <= R64 x). { assert (1 <= IZR n) by (apply IZR_le; lia). lra. }
    set (K := mag radix2 (R64 x) : Z) in *.
    assert (HK0 : (0 <= K)%Z).
    { apply mag_ge_bpow. rewrite Rabs_pos_eq by lra. change (bpow radix2 (0 - 1)) with (/ 2). lra. }
    assert (HvK : R64 x < bpow radix2 K).
    { pose proof (bpow_mag_gt radix2 (R64 x)) as B. rewrite Rabs_pos_eq in B by lra. exact B. }
    assert (HK1 : (K <= 52)%Z).
    { apply mag_le_bpow; [lra|]. rewrite Rabs_pos_eq by lra. eapply Rle_lt_trans; [exact H1|]. apply bpow_lt; lia. }
    destruct (Rle_lt_dec (IZR n + 1) (bpow radix2 K)) as [C|C].
    + destruct (format_grid x K Hf ltac:(lra) ltac:(unfold K; lia) ltac:(lia)) as [m E].
      assert (E2 : R64 x + / 2 = IZR (m + 2 ^ (52 - K)) * bpow radix2 (K - 53)).
      { rewrite plus_IZR, <- bpow_IZR by lia. rewrite Rmult_plus_distr_r, <- E, <- bpow_plus.
        replace (52 - K + (K - 53))%Z with (-1)%Z by lia. reflexivity. }
      rewrite E2, rnd_dy; [rewrite <- E2; lra| |lia].
      rewrite Z.abs_eq.
      * apply le_IZR. rewrite <- (bpow_IZR 53) by lia.
        apply Rmult_le_reg_r with (bpow radix2 (K - 53)); [apply bpow_gt_0|].
        rewrite <- E2, <- bpow_plus. replace (53 + (K - 53))%Z with K by lia. lra.
      * apply le_IZR. apply Rmult_le_reg_r with (bpow radix2 (K - 53)); [apply bpow_gt_0|].
        rewrite <- E2. lra.
    + assert (Hn3 : bpow radix2 K <= IZR n).
      { rewrite bpow_IZR in * by lia. apply IZR_le. apply Z.lt_succ_r. apply lt_IZR. unfold Z.succ. rewrite plus_IZR. exact C. }
      assert (R1 : rnd (R64 x + / 2) <= IZR n + / 2).
      { replace (IZR n + / 2) with (IZR (2 * n + 1) * bpow radix2 (-1)).
        - rewrite <- rnd_dy by lia. apply rnd_le. rewrite plus_IZR, mult_IZR. change (bpow radix2 (-1)) with (/ 2). lra.
        - rewrite plus_IZR, mult_IZR. change (bpow radix2 (-1)) with (/ 2). lra. }
      lra.
Qed.

Lemma fast_round_is_round x : fin x -> 0 <= R64 x <= bpow radix2 51 -> x <> pred_half ->
  fast_round x = go_int (fround x).
Proof. intros Hf H Hx. rewrite fast_round_R, go_int_fround by assumption. now apply rnd_add_half. Qed.

(** Rounding of a real close to an integer. *)
Lemma near_floor v z : Rabs (v - IZR z) < / 2 -> Zfloor (v + / 2) = z.
Proof. intros H. apply Rabs_lt_inv in H. apply Zfloor_imp. rewrite plus_IZR. lra. Qed.

Lemma norm_mul_close z w : (1 <= w <= 32767)%Z -> (0 <= z <= w)%Z ->
  let x := fmul (fdiv (f64_of_Z z) (f64_of_Z w)) (f64_of_Z w) in
  fin x /\ 0 <= R64 x <= 32768 /\ Rabs (R64 x - IZR z) <= bpow radix2 (-37).
Proof.
  intros Hw Hz. cbv zeta.
  destruct (of_Z_R z ltac:(lia)) as [Fz Ez]. destruct (of_Z_R w ltac:(lia)) as [Fw Ew].
  assert (Rw : 1 <= IZR w <= 32767) by (split; apply IZR_le; lia).
  assert (Rz : 0 <= IZR z <= IZR w) by (split; apply IZR_le; lia).
  assert (Q : 0 <= IZR z / IZR w <= 1).
  { split; [apply Rmult_le_pos; [lra|]; left; apply Rinv_0_lt_compat; lra|].
    apply Rmult_le_reg_r with (IZR w); [lra|]. unfold Rdiv. rewrite Rmult_assoc, Rinv_l by lra. lra. }
  destruct (fdiv_R (f64_of_Z z) (f64_of_Z w) Fz Fw) as [Fd Ed].
  { rewrite Ew. lra. }
  { rewrite Ez, Ew, Rabs_pos_eq by lra. eapply Rle_trans with (bpow radix2 0); [change (bpow radix2 0) with 1; lra|apply bpow_le; lia]. }
  rewrite Ez, Ew in Ed.
  assert (D1 : 0 <= R64 (fdiv (f64_of_Z z) (f64_of_Z w)) <= 1).
  { rewrite Ed. split; [rewrite <- rnd_0; apply rnd_le; lra|].
    replace 1 with (rnd 1) by (apply (rnd_Z 1); lia). apply rnd_le; lra. }
  assert (D2 : Rabs (R64 (fdiv (f64_of_Z z) (f64_of_Z w)) - IZR z / IZR w) <= bpow radix2 (-54)).
  { rewrite Ed. apply (rnd_err _ 0); [lia|]. rewrite Rabs_pos_eq by lra. change (bpow radix2 0) with 1. lra. }
  set (d := R64 (fdiv (f64_of_Z z) (f64_of_Z w))) in *.
  assert (B15 : bpow radix2 15 = 32768) by reflexivity.
  assert (M0 : 0 <= d * IZR w <= bpow radix2 15) by (rewrite B15; nra).
  assert (M1 : Rabs (d * IZR w) <= bpow radix2 15) by (rewrite Rabs_pos_eq; lra).
  destruct (fmul_R (fdiv (f64_of_Z z) (f64_of_Z w)) (f64_of_Z w) Fd Fw) as [Fm Em].
  { rewrite Ew. fold d. eapply Rle_trans; [exact M1|apply bpow_le; lia]. }
  rewrite Ew in Em. fold d in Em.
  split; [exact Fm|]. rewrite Em. split.
  - split; [rewrite <- rnd_0; apply rnd_le; lra|].
    rewrite <- B15, <- (rnd_bpow 15) by lia. apply rnd_le. lra.
  - replace (rnd (d * IZR w) - IZR z) with ((rnd (d * IZR w) - d * IZR w) + (d - IZR z / IZR w) * IZR w) by (field; lra).
    eapply Rle_trans; [apply Rabs_triang|].
    assert (E1 : Rabs (rnd (d * IZR w) - d * IZR w) <= bpow radix2 (-39)) by (apply (rnd_err _ 15); [lia|exact M1]).
    assert (E2 : Rabs ((d - IZR z / IZR w) * IZR w) <= bpow radix2 (-39)).
    { rewrite Rabs_mult, (Rabs_pos_eq (IZR w)) by lra. change (-39)%Z with (-54 + 15)%Z. rewrite bpow_plus.
      apply Rmult_le_compat; try apply Rabs_pos; try lra. }
    change (-37)%Z with (2 + -39)%Z. rewrite bpow_plus. change (bpow radix2 2) with 4.
    assert (0 < bpow radix2 (-39)) by apply bpow_gt_0. lra.
Qed.

Lemma i16_small z : (-32768 <= z <= 32767)%Z -> i16 z = z.
Proof. intros H. unfold i16, wraps. change (2 ^ (16 - 1))%Z with 32768%Z. change (2^16)%Z with 65536%Z.
  rewrite Z.mod_small by lia. lia. Qed.

Lemma tiny : bpow radix2 (-37) < / 8.
Proof. change (/ 8) with (bpow radix2 (-3)). apply bpow_lt. lia. Qed.

Lemma round_trip_coord z w : (1 <= w <= 32767)%Z -> (0 <= z <= w)%Z ->
  let x := fmul (fdiv (f64_of_Z z) (f64_of_Z w)) (f64_of_Z w) in
  fast_round x = z /\ go_int (fround x) = z.
Proof.
  intros Hw Hz. destruct (norm_mul_close z w Hw Hz) as (F & B & C). cbv zeta in *.
  set (x := fmul _ _) in *. pose proof tiny as T.
  assert (B51 : 0 <= R64 x <= bpow radix2 51).
  { split; [lra|]. eapply Rle_trans; [apply B|]. change 32768 with (bpow radix2 15). apply bpow_le; lia. }
  rewrite go_int_fround by assumption. split; [|apply near_floor; lra].
  rewrite rnd_add_half || rewrite fast_round_R by assumption.
  apply Zfloor_imp. rewrite plus_IZR. apply Rabs_le_inv in C.
  assert (L1 : rnd (IZR z + / 4) <= rnd (R64 x + / 2)) by (apply rnd_le; lra).
  assert (L2 : rnd (R64 x + / 2) <= rnd (IZR z + 3 / 4)) by (apply rnd_le; lra).
  assert (Hq : forall k, (0 <= k < 4)%Z -> rnd (IZR z + IZR k / 4) = IZR z + IZR k / 4).
  { intros k Hk. replace (IZR z + IZR k / 4) with (IZR (4 * z + k) * bpow radix2 (-2)).
    - apply rnd_dy; lia.
    - rewrite plus_IZR, mult_IZR. change (bpow radix2 (-2)) with (/4). lra. }
  pose proof (Hq 1%Z ltac:(lia)) as Q1. pose proof (Hq 3%Z ltac:(lia)) as Q3. 
  replace (IZR z + 1 / 4) with (IZR z + / 4) in Q1 by lra. rewrite Q1 in L1. rewrite Q3 in L2. lra.
Qed.

Lemma round_trip w h p : (1 <= w <= 32767)%Z -> (1 <= h <= 32767)%Z ->
  (0 <= px p <= w)%Z -> (0 <= py p <= h)%Z ->
  let n := to_norm w h p in
  create_point (nx n) (ny n) w h = p /\ render_point n w h = p /\ polygonate_point n w h = p.
Proof.
  intros Hw Hh Hx Hy. cbv zeta. unfold to_norm, create_point, render_point, polygonate_point, render_coord. cbn [nx ny].
  destruct (round_trip_coord (px p) w Hw Hx) as [A1 A2]. destruct (round_trip_coord (py p) h Hh Hy) as [B1 B2].
  cbv zeta in *. rewrite A1, A2, B1, B2, !i16_small by lia. destruct p; auto.
Qed.

(* ---------------- C55: Area ---------------- *)

Definition fpt (p : point) : npoint := NP (f64_of_Z (px p)) (f64_of_Z (py p)).

(** The term of the loop for the pair (j, i). *)
Definition area_term (pj pi : point) : Z := ((px pj + px pi) * (py pj - py pi))%Z.

Fixpoint terms (pj : point) (l : list point) : list Z :=
  match l with [] => [] | pi :: l' => area_term pj pi :: terms pi l' end.

Definition small_coord (p : point) : Prop := (Z.abs (px p) <= 2 ^ 52 /\ Z.abs (py p) <= 2 ^ 52)%Z.

Lemma exact_Z z : (Z.abs z <= 2 ^ 53)%Z -> Rabs (IZR z) <= bpow radix2 1023 /\ rnd (IZR z) = IZR z.
Proof.
  intros H. split; [|apply rnd_Z, H]. rewrite <- abs_IZR. eapply Rle_trans with (bpow radix2 53).
  - rewrite bpow_IZR by lia. apply IZR_le, H.
  - apply bpow_le; lia.
Qed.

Lemma area_loop_exact l : forall pj acc s, small_coord pj -> Forall small_coord l ->
  fin acc -> R64 acc = IZR s ->
  (Z.abs s + sumZ (map Z.abs (terms pj l)) <= 2 ^ 53)%Z ->
  let r := area_loop acc (fpt pj) (map fpt l) in
  fin r /\ R64 r = IZR (s + sumZ (terms pj l)).
Proof.
  induction l as [|p l IH]; intros pj acc s Hj Hl Fa Ea B; cbv zeta.
  - cbn. split; [exact Fa|]. rewrite Z.add_0_r. exact Ea.
  - inversion Hl as [|? ? Hp Hl']; subst. cbn [map area_loop fpt nx ny terms sumZ] in *.
    destruct Hj as [Jx Jy]. destruct Hp as [Px Py].
    assert (Ht : (Z.abs (area_term pj p) + sumZ (map Z.abs (terms p l)) <= 2 ^ 53 - Z.abs s)%Z) by lia.
    assert (Hpos : (0 <= sumZ (map Z.abs (terms p l)))%Z).
    { clear. induction (terms p l); cbn; lia. }
    destruct (of_Z_R (px pj) ltac:(lia)) as [F1 E1]. destruct (of_Z_R (px p) ltac:(lia)) as [F2 E2].
    destruct (of_Z_R (py pj) ltac:(lia)) as [F3 E3]. destruct (of_Z_R (py p) ltac:(lia)) as [F4 E4].
    destruct (exact_Z (px pj + px p) ltac:(lia)) as [S1 S2].
    destruct (exact_Z (py pj - py p) ltac:(lia)) as [S3 S4].
    destruct (exact_Z (area_term pj p) ltac:(lia)) as [S5 S6].
    destruct (exact_Z (s + area_term pj p) ltac:(lia)) as [S7 S8].
    destruct (fadd_R _ _ F1 F2) as [G1 K1]; [rewrite E1, E2, <- plus_IZR; exact S1|].
    destruct (fsub_R _ _ F3 F4) as [G2 K2]; [rewrite E3, E4, <- minus_IZR; exact S3|].
    rewrite E1, E2, <- plus_IZR, S2 in K1. rewrite E3, E4, <- minus_IZR, S4 in K2.
    destruct (fmul_R _ _ G1 G2) as [G3 K3]; [rewrite K1, K2, <- mult_IZR; exact S5|].
    rewrite K1, K2, <- mult_IZR in K3. change ((px pj + px p) * (py pj - py p))%Z with (area_term pj p) in K3.
    rewrite S6 in K3.
    destruct (fadd_R _ _ Fa G3) as [G4 K4]; [rewrite Ea, K3, <- plus_IZR; exact S7|].
    rewrite Ea, K3, <- plus_IZR, S8 in K4.
    destruct (IH p _ (s + area_term pj p)%Z (conj Px Py) Hl' G4 K4) as [R1 R2]; [lia|].
    split; [exact R1|]. rewrite R2. f_equal. lia.
Qed.

Lemma terms_sum l : forall pj, sumZ (terms pj l) = (- path_sum cross (pj :: l) + px pj * py pj - px (last l pj) * py (last l pj))%Z.
Proof.
  induction l as [|p l IH]; intros pj; [cbn; lia|]. cbn [terms sumZ]. rewrite IH, path_sum_cons2, last_cons.
  unfold area_term, cross. lia.
Qed.

Lemma terms_closed p l : sumZ (terms (last (p :: l) p) (p :: l)) = (- shoelace2 (p :: l))%Z.
Proof.
  rewrite terms_sum. unfold shoelace2. rewrite !last_cons. rewrite path_sum_cons2. lia.
Qed.

Lemma half_round z : (0 <= z)%Z -> Zfloor (IZR z / 2 + / 2) = ((z + 1) / 2)%Z.
Proof.
  intros H. apply Zfloor_imp. rewrite plus_IZR. 
  pose proof (Z.div_mod (z + 1) 2 ltac:(lia)) as D. pose proof (Z.mod_pos_bound (z + 1) 2 ltac:(lia)) as M.
  assert (E : IZR z = 2 * IZR ((z + 1) / 2) + IZR ((z + 1) mod 2) - 1).
  { rewrite <- (mult_IZR 2), <- plus_IZR, <- minus_IZR. f_equal. lia. }
  assert (0 <= IZR ((z + 1) mod 2) <= 1) by (split; apply IZR_le; lia).
  rewrite E. lra.
Qed.

Lemma area_exact p l : Forall small_coord (p :: l) ->
  (sumZ (map Z.abs (terms (last (p :: l) p) (p :: l))) <= 2 ^ 51)%Z ->
  area (map fpt (p :: l)) = ((Z.abs (shoelace2 (p :: l)) + 1) / 2)%Z.
Proof.
  intros Hl B. unfold area. cbn [map].
  change (fpt p :: map fpt l) with (map fpt (p :: l)). rewrite last_map.
  set (pj := last (p :: l) p) in *.
  assert (Hj : small_coord pj).
  { rewrite Forall_forall in Hl. apply Hl. unfold pj. clear. revert p; induction l as [|b l IH]; intros p; [now left|].
    rewrite last_cons. right. specialize (IH b). rewrite last_cons in IH |- *. exact IH. }
  destruct (area_loop_exact (p :: l) pj f0 0 Hj Hl eq_refl f0_R) as [F E]; [cbn [Z.abs]; lia|].
  rewrite Z.add_0_l in E. unfold pj in E at 2. rewrite terms_closed in E.
  set (S := shoelace2 (p :: l)) in *. set (r := area_loop _ _ _) in *.
  assert (HS : (Z.abs S <= 2 ^ 51)%Z).
  { assert (T : forall k : list Z, (Z.abs (sumZ k) <= sumZ (map Z.abs k))%Z) by (induction k; cbn; lia).
    specialize (T (terms pj (p :: l))). unfold pj in T at 1. rewrite terms_closed in T. fold S in T. lia. }
  destruct (of_Z_R 2 ltac:(lia)) as [F2 E2].
  assert (Ed : R64 r / R64 (f64_of_Z 2) = IZR (- S) * bpow radix2 (-1)).
  { rewrite E, E2. change (bpow radix2 (-1)) with (/ 2). unfold Rdiv. reflexivity. }
  assert (Bd : Rabs (IZR (- S) * bpow radix2 (-1)) <= bpow radix2 51).
  { rewrite Rabs_mult, (Rabs_pos_eq (bpow _ _)) by apply bpow_ge_0. rewrite <- abs_IZR.
    change (bpow radix2 (-1)) with (/ 2). rewrite (bpow_IZR 51) by lia.
    assert (0 <= IZR (Z.abs (- S)) <= IZR (2 ^ 51)) by (split; apply IZR_le; lia). lra. }
  destruct (fdiv_R r (f64_of_Z 2) F F2) as [F3 E3].
  - rewrite E2. lra.
  - rewrite Ed. eapply Rle_trans; [exact Bd|apply bpow_le; lia].
  - rewrite Ed, rnd_dy in E3 by lia.
    assert (F4 : fin (fabs (fdiv r (f64_of_Z 2)))).
    { unfold fin, fabs. rewrite is_finite_Babs. exact F3. }
    assert (E4 : R64 (fabs (fdiv r (f64_of_Z 2))) = IZR (Z.abs S) / 2).
    { unfold fabs. rewrite B2R_Babs, E3, Rabs_mult, (Rabs_pos_eq (bpow _ _)) by apply bpow_ge_0.
      rewrite <- abs_IZR, Z.abs_opp. reflexivity. }
    rewrite go_int_fround; [|exact F4|].
    + rewrite E4. apply half_round. lia.
    + rewrite E4. assert (0 <= IZR (Z.abs S) <= IZR (2 ^ 51)) by (split; apply IZR_le; lia).
      rewrite (bpow_IZR 51) by lia. lra.
Qed.
