(** The polygon fitness and the error of the picture of polygons (C81). *)
From Coq Require Import ZArith Reals List Bool Lia Lra Permutation.
From Flocq Require Import Core IEEE754.BinarySingleNaN.
From Verif Require Import GoNum FloatLemmas M_Norm S_Norm M_Slice M_Geom S_Geom M_Image S_Image L_Image M_Raster S_Raster M_Render L_Render M_Delaunay M_Algo M_Fitness S_Fitness M_Voronoi M_Polygons S_Polygons S_PolySum L_Sums L_Var L_Bound S_Colour L_Colour L_Colour2 S_PolyColour.
Import ListNotations.
Open Scope R_scope.

Section Loop.
Context (fi : fimg) (E : list fpoint -> R) (N : list fpoint -> Z).
Lemma psum_close ls : forall K m s x x', (0 <= K)%Z -> (0 <= m)%Z -> (K + sum_over N ls <= 2 ^ 23)%Z -> (m + Z.of_nat (length ls) <= 2 ^ 24)%Z ->
  (forall l, In l ls -> (0 <= N l)%Z /\ 0 <= E l <= 195075 * IZR (N l) /\ forall v, poly_diff fi (fast_polygon l) = Some v -> fin v /\ E l - IZR (N l) - / 32 <= R64 v <= E l + / 32) ->
  fin x -> 0 <= s <= 195075 * IZR K -> s - IZR K - / 16 * IZR m <= R64 x <= s + / 16 * IZR m ->
  foldM (fun d l => option_map (fadd d) (poly_diff fi (fast_polygon l))) ls x = Some x' ->
  let K' := (K + sum_over N ls)%Z in let m' := (m + Z.of_nat (length ls))%Z in
  fin x' /\ 0 <= s + total E ls <= 195075 * IZR K' /\ s + total E ls - IZR K' - / 16 * IZR m' <= R64 x' <= s + total E ls + / 16 * IZR m'.
Proof.
  induction ls as [|l ls IH]; intros K m s x x' HK Hm LK Lm HT Fx Bs Bx; cbn [foldM sum_over fold_right length].
  - intros [= <-]. cbv zeta. rewrite !Z.add_0_r. unfold total. cbn [fold_right]. rewrite Rplus_0_r. auto.
  - fold (sum_over N ls). cbn [sum_over fold_right length] in LK, Lm. fold (sum_over N ls) in LK.
    assert (S0 : (0 <= sum_over N ls)%Z). { rewrite <- (Z.mul_0_l (Z.of_nat (length ls))), <- (sum_over_const 0 ls). apply sum_over_le. intros u Hu. apply HT. right. exact Hu. }
    destruct (HT l (or_introl eq_refl)) as (N0 & E0 & V). destruct (poly_diff fi (fast_polygon l)) as [v|]; [|discriminate]. cbn [option_map]. intros H. destruct (V v eq_refl) as [Fv Bv].
    assert (RK : 0 <= IZR K <= 8388608) by (split; apply IZR_le; lia). assert (RN : 0 <= IZR (N l) <= 8388608) by (split; apply IZR_le; lia). assert (RM : 0 <= IZR m <= 16777216) by (split; apply IZR_le; lia).
    assert (RKN : IZR K + IZR (N l) <= 8388608) by (rewrite <- plus_IZR; apply IZR_le; lia).
    assert (Sm : Rabs (R64 x + R64 v) <= bpow radix2 41) by (rewrite (bp 41 2199023255552) by lia; apply Rabs_le; lra).
    destruct (fadd_R x v Fx Fv) as [F1 Ea]; [eapply Rle_trans; [exact Sm|apply bpow_le; lia]|].
    pose proof (rnd_err _ 41 ltac:(lia) Sm) as RE. rewrite <- Ea in RE. apply Rabs_le_inv in RE.
    assert (C : bpow radix2 (41 - 54) <= / 32) by (change (/ 32) with (bpow radix2 (-5)); apply bpow_le; lia).
    cbv zeta. replace (K + (N l + sum_over N ls))%Z with ((K + N l) + sum_over N ls)%Z by lia. replace (m + Z.of_nat (S (length ls)))%Z with ((m + 1) + Z.of_nat (length ls))%Z by lia.
    rewrite total_cons, <- Rplus_assoc. apply (IH (K + N l)%Z (m + 1)%Z (s + E l) (fadd x v) x' ltac:(lia) ltac:(lia) ltac:(lia) ltac:(lia)) in H; try assumption.
    + intros u Hu. apply HT. right. exact Hu.
    + rewrite plus_IZR. lra.
    + rewrite !plus_IZR. lra.
Qed.
End Loop.

Lemma pfit_close (wh K m : Z) (x mx : f64) (s : R) : (1 <= wh <= 3686400)%Z -> (0 <= K)%Z -> (2 * K <= 3 * wh)%Z -> (0 <= m <= 4 * wh)%Z -> fin x -> fin mx -> R64 mx = IZR (195075 * wh) ->
  0 <= 65025 * s <= 195075 * IZR K -> 65025 * s - IZR K - / 16 * IZR m <= R64 x <= 65025 * s + / 16 * IZR m ->
  let g := 1 - s / 3 / IZR wh in g - 0.0000013 <= R64 (fsub f1 (fdiv x mx)) <= g + 0.000009.
Proof.
  intros Hw HK HK2 Hm Fx Fm Em Bs Bx. cbv zeta. rewrite mult_IZR in Em.
  assert (W : 1 <= IZR wh <= 3686400) by (split; apply IZR_le; lia). assert (RK : 0 <= IZR K) by (apply IZR_le; lia). assert (RK2 : 2 * IZR K <= 3 * IZR wh) by (rewrite <- !mult_IZR; apply IZR_le; lia).
  assert (RM : 0 <= IZR m <= 4 * IZR wh) by (rewrite <- mult_IZR; split; apply IZR_le; lia). set (wr := IZR wh) in *. set (kr := IZR K) in *. set (mr := IZR m) in *. clearbody wr kr mr.
  assert (Pm : 195075 <= R64 mx) by lra. assert (Dq : R64 x / R64 mx * R64 mx = R64 x) by (unfold Rdiv; rewrite Rmult_assoc, Rinv_l; lra).
  assert (Dg : s / 3 / wr * wr = s / 3) by (unfold Rdiv at 1; rewrite Rmult_assoc, Rinv_l; lra). set (g := s / 3 / wr) in *. clearbody g. set (q := R64 x / R64 mx) in *.
  assert (Q : g - 0.00000898 <= q <= g + 0.00000129). { split; apply Rmult_le_reg_r with (R64 mx); try lra; rewrite Dq, Em; ring_simplify; nra. }
  assert (Q2 : -2 <= q <= 2). { split; apply Rmult_le_reg_r with (R64 mx); try lra; rewrite Dq; nra. }
  assert (Aq : Rabs q <= bpow radix2 1) by (change (bpow radix2 1) with 2; apply Rabs_le; lra).
  destruct (fdiv_R x mx Fx Fm) as [F4 E4]; [lra|fold q; eapply Rle_trans; [exact Aq|apply bpow_le; lia]|]. fold q in E4.
  pose proof (rnd_err q 1 ltac:(lia) Aq) as RQ. rewrite <- E4 in RQ. apply Rabs_le_inv in RQ. assert (C1 : bpow radix2 (1 - 54) <= / 1000000000) by (cbn; lra).
  assert (Af : Rabs (R64 f1 - R64 (fdiv x mx)) <= bpow radix2 2) by (rewrite f1_R; change (bpow radix2 2) with 4; apply Rabs_le; lra).
  destruct (fsub_R f1 (fdiv x mx) f1_fin F4) as [_ E6]; [eapply Rle_trans; [exact Af|apply bpow_le; lia]|].
  pose proof (rnd_err _ 2 ltac:(lia) Af) as RF. rewrite <- E6 in RF. apply Rabs_le_inv in RF. rewrite f1_R in RF. assert (C2 : bpow radix2 (2 - 54) <= / 1000000000) by (cbn; lra). lra.
Qed.
