(** The fitness and the error of the picture (C74). *)
From Coq Require Import ZArith Reals List Bool Lia Lra Permutation.
From Flocq Require Import Core IEEE754.BinarySingleNaN.
From Verif Require Import GoNum FloatLemmas M_Norm S_Norm M_Slice M_Geom S_Geom M_Image S_Image L_Image M_Raster S_Raster M_Render L_Render M_Delaunay M_Algo M_Fitness S_Fitness L_Sums L_Var L_Bound S_Colour L_Colour L_Colour2.
Import ListNotations.
Open Scope R_scope.

(** * The loop over the triangles *)
Section Loop.
Context (fi : fimg) (B : Z) (E : dtri -> R).
Hypothesis HB : (0 <= B <= 7372800)%Z.
Lemma close_loop ts : forall A s x y x' y', (0 <= A)%Z -> (A + sum_over dbl ts <= B)%Z ->
  (forall t, In t ts -> (0 < dbl t)%Z /\ forall v, tri_diff fi (d_a t) (d_b t) (d_c t) = Some v -> fin v /\ IZR (- (2 * dbl t)) <= R64 v <= IZR (49535 * dbl t) /\
     E t - 33 / 32 * IZR (dbl t) <= R64 v <= E t + / 32 * IZR (dbl t)) ->
  fin x -> IZR (- (2 * A)) <= R64 x <= IZR (49535 * A) -> s - 17 / 16 * IZR A <= R64 x <= s + / 16 * IZR A ->
  foldM (fun (da : f64 * f64) t => match tri_diff fi (d_a t) (d_b t) (d_c t) with None => None
      | Some v => Some (fadd (fst da) v, fadd (snd da) (tri_area (d_a t) (d_b t) (d_c t))) end) ts (x, y) = Some (x', y') ->
  let A' := (A + sum_over dbl ts)%Z in s + total E ts - 17 / 16 * IZR A' <= R64 x' <= s + total E ts + / 16 * IZR A'.
Proof.
  induction ts as [|t ts IH]; intros A s x y x' y' HA HS HT Fx Bx Ex; cbn [foldM sum_over fold_right].
  - intros [= <- <-]. rewrite Z.add_0_r. cbv zeta. unfold total. cbn [fold_right]. lra.
  - fold (sum_over dbl ts). cbn [sum_over fold_right] in HS. fold (sum_over dbl ts) in HS.
    assert (S0 : (0 <= sum_over dbl ts)%Z) by (rewrite <- (Z.mul_0_l (Z.of_nat (length ts))), <- (sum_over_const 0 ts); apply sum_over_le; intros; unfold dbl; lia).
    destruct (HT t (or_introl eq_refl)) as [D0 V2]. destruct (tri_diff fi (d_a t) (d_b t) (d_c t)) as [v|] eqn:Ev; [|discriminate]. cbn [fst snd]. intros H.
    destruct (V2 v eq_refl) as (Fv & Bv & Dv).
    destruct (acc_diff x v (- (2 * A)) (49535 * A) (- (2 * dbl t)) (49535 * dbl t) Fx Fv Bx Bv ltac:(lia) ltac:(lia)) as [F1 B1].
    assert (Sm : Rabs (R64 x + R64 v) <= bpow radix2 39).
    { rewrite (bp 39 549755813888) by lia. apply Rabs_le. assert (IZR (49535 * A) + IZR (49535 * dbl t) <= 549755813888) by (rewrite <- plus_IZR; apply IZR_le; lia).
      assert (-549755813888 <= IZR (- (2 * A)) + IZR (- (2 * dbl t))) by (rewrite <- plus_IZR; apply IZR_le; lia). lra. }
    destruct (fadd_R x v Fx Fv) as [_ Ea]; [eapply Rle_trans; [exact Sm|apply bpow_le; lia]|].
    pose proof (rnd_err _ 39 ltac:(lia) Sm) as RE. rewrite <- Ea in RE. apply Rabs_le_inv in RE.
    assert (C : bpow radix2 (39 - 54) <= / 32) by (change (/ 32) with (bpow radix2 (-5)); apply bpow_le; lia).
    assert (D1 : 1 <= IZR (dbl t)) by (apply IZR_le; lia).
    rewrite Z.add_assoc. rewrite total_cons, <- Rplus_assoc. apply (IH (A + dbl t)%Z (s + E t) (fadd x v) _ x' y' ltac:(lia) ltac:(lia)) in H; try assumption.
    + intros u Hu. apply HT. right. exact Hu.
    + replace (- (2 * (A + dbl t)))%Z with (- (2 * A) + - (2 * dbl t))%Z by lia. replace (49535 * (A + dbl t))%Z with (49535 * A + 49535 * dbl t)%Z by lia. exact B1.
    + rewrite plus_IZR. lra.
Qed.
End Loop.

(** * The fitness *)
Lemma fit_close (wh A : Z) (x y m : f64) (s : R) : (1 <= wh <= 3686400)%Z -> (0 <= A <= 2 * wh)%Z -> fin x -> fin y -> fin m ->
  IZR (- (2 * A)) <= R64 x <= IZR (49535 * A) -> R64 y = IZR A / 2 -> R64 m = IZR (195075 * wh) ->
  65025 * s - 17 / 16 * IZR A <= R64 x <= 65025 * s + / 16 * IZR A ->
  let f := fsub f1 (fdiv (fadd x (fmul (f64_of_Z max_pixel_difference) (fsub (f64_of_Z wh) y))) m) in
  let g := 1 - (s / 3 + (IZR wh - IZR A / 2)) / IZR wh in g - 0.0000007 <= R64 f <= g + 0.000011.
Proof.
  intros Hw HA Fx Fy Fm Bx Ey Em Sx. cbv zeta.
  destruct (of_Z_R wh ltac:(lia)) as [Fw Ew].
  assert (W : 1 <= IZR wh <= 3686400) by (split; apply IZR_le; lia). assert (RA : 0 <= IZR A <= 2 * IZR wh) by (rewrite <- mult_IZR; split; apply IZR_le; lia).
  destruct (fsub_R _ _ Fw Fy) as [F1 E1]; [rewrite Ew, Ey; apply small_bp, Rabs_le; lra|].
  replace (R64 (f64_of_Z wh) - R64 y) with (IZR (2 * wh - A) / 2) in E1 by (rewrite Ew, Ey, minus_IZR, mult_IZR; lra). rewrite rnd_half in E1 by lia.
  destruct (of_Z_R max_pixel_difference ltac:(unfold max_pixel_difference; lia)) as [F5 E5]. unfold max_pixel_difference in *.
  assert (RB : 0 <= IZR (2 * wh - A) <= 7372800) by (split; apply IZR_le; lia).
  destruct (fmul_R _ _ F5 F1) as [F2 E2]; [rewrite E5, E1; apply small_bp, Rabs_le; lra|].
  replace (R64 (f64_of_Z 195075) * R64 (fsub (f64_of_Z wh) y)) with (IZR (195075 * (2 * wh - A)) / 2) in E2 by (rewrite E5, E1, mult_IZR; lra). rewrite rnd_half in E2 by lia.
  set (b := fmul (f64_of_Z 195075) (fsub (f64_of_Z wh) y)) in *. clearbody b.
  assert (EB : R64 b = 195075 * IZR wh - 195075 / 2 * IZR A) by (rewrite E2, mult_IZR, minus_IZR, mult_IZR; lra).
  rewrite opp_IZR, !mult_IZR in Bx. rewrite mult_IZR in Em.
  assert (Sm : Rabs (R64 x + R64 b) <= bpow radix2 40) by (rewrite (bp 40 1099511627776) by lia; apply Rabs_le; lra).
  destruct (fadd_R x b Fx F2) as [F3 E3]; [eapply Rle_trans; [exact Sm|apply bpow_le; lia]|].
  pose proof (rnd_err _ 40 ltac:(lia) Sm) as RE. rewrite <- E3 in RE. apply Rabs_le_inv in RE.
  assert (C : bpow radix2 (40 - 54) <= / 16384) by (right; cbn; lra).
  set (u := fadd x b) in *. clearbody u. set (wr := IZR wh) in *. set (ar := IZR A) in *. clearbody wr ar.
  assert (Pm : 195075 <= R64 m) by lra. 
  assert (Dq : R64 u / R64 m * R64 m = R64 u) by (unfold Rdiv; rewrite Rmult_assoc, Rinv_l; lra).
  assert (Dg : (s / 3 + (wr - ar / 2)) / wr * wr = s / 3 + (wr - ar / 2)) by (unfold Rdiv at 1; rewrite Rmult_assoc, Rinv_l; lra).
  set (g := (s / 3 + (wr - ar / 2)) / wr) in *. clearbody g. set (q := R64 u / R64 m) in *.
  assert (Q : g - 0.00001090 <= q <= g + 0.00000065).
  { split; apply Rmult_le_reg_r with (R64 m); try lra; rewrite Dq, Em; ring_simplify; nra. }
  assert (Q2 : -2 <= q <= 2). { split; apply Rmult_le_reg_r with (R64 m); try lra; rewrite Dq; nra. }
  assert (Aq : Rabs q <= bpow radix2 1) by (change (bpow radix2 1) with 2; apply Rabs_le; lra).
  destruct (fdiv_R u m F3 Fm) as [F4 E4]; [lra|fold q; eapply Rle_trans; [exact Aq|apply bpow_le; lia]|]. fold q in E4.
  pose proof (rnd_err q 1 ltac:(lia) Aq) as RQ. rewrite <- E4 in RQ. apply Rabs_le_inv in RQ.
  assert (C1 : bpow radix2 (1 - 54) <= / 1000000000) by (cbn; lra).
  assert (Af : Rabs (R64 f1 - R64 (fdiv u m)) <= bpow radix2 2) by (rewrite f1_R; change (bpow radix2 2) with 4; apply Rabs_le; lra).
  destruct (fsub_R f1 (fdiv u m) f1_fin F4) as [_ E6]; [eapply Rle_trans; [exact Af|apply bpow_le; lia]|].
  pose proof (rnd_err _ 2 ltac:(lia) Af) as RF. rewrite <- E6 in RF. apply Rabs_le_inv in RF. rewrite f1_R in RF.
  assert (C2 : bpow radix2 (2 - 54) <= / 1000000000) by (cbn; lra). lra.
Qed.
