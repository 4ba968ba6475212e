(** Proofs about the sizes of moves (C78). *)
From Coq Require Import ZArith Reals List Bool Lia Lra.
From Flocq Require Import Core IEEE754.BinarySingleNaN Sterbenz Relative.
From Verif Require Import GoNum FloatLemmas L_F32 M_Norm M_Spaced S_Norm L_Norm S_Move.
Import ListNotations.
Open Scope R_scope.

(* ---------------- clamp ---------------- *)
Lemma clamp_in r : 0 <= clamp r <= 1.
Proof. unfold clamp. split; [apply Rmax_l|]. apply Rmax_lub; [lra|apply Rmin_l]. Qed.
Lemma clamp_id r : 0 <= r <= 1 -> clamp r = r.
Proof. intros H. unfold clamp. rewrite Rmin_right, Rmax_right; lra. Qed.
Lemma clamp_hi r : 1 <= r -> clamp r = 1.
Proof. intros H. unfold clamp. rewrite Rmin_left, Rmax_right; lra. Qed.
Lemma clamp_lo r : r <= 0 -> clamp r = 0.
Proof. intros H. unfold clamp. rewrite Rmin_right, Rmax_left; lra. Qed.
Lemma clamp_lip a b : Rabs (clamp a - clamp b) <= Rabs (a - b).
Proof.
  unfold clamp, Rmax, Rmin. repeat destruct (Rle_dec _ _); unfold Rabs; repeat destruct (Rcase_abs _); lra.
Qed.
Lemma clamp_move v d : 0 <= v <= 1 -> Rabs (clamp (v + d) - v) <= Rabs d.
Proof. intros H. rewrite <- (clamp_id v H) at 2. replace d with (v + d - v) at 2 by ring. apply clamp_lip. Qed.

Lemma constrain1_R v : fin v -> fin (constrain1 v) /\ R64 (constrain1 v) = clamp (R64 v).
Proof.
  intros Hf. destruct (Rlt_le_dec 1 (R64 v)) as [H|H].
  - rewrite constrain1_above by (right; auto). split; [reflexivity|]. rewrite f1_R, clamp_hi; lra.
  - destruct (Rlt_le_dec (R64 v) 0) as [H0|H0].
    + rewrite constrain1_below by (right; auto). split; [reflexivity|]. rewrite f0_R, clamp_lo; lra.
    + rewrite constrain1_in by (split; auto). split; [exact Hf|]. rewrite clamp_id; lra.
Qed.

(* ---------------- large values ---------------- *)
Definition huge_pos (c : R) (x : f64) : Prop := x = B754_infinity false \/ (fin x /\ c <= R64 x).
Definition huge_neg (c : R) (x : f64) : Prop := x = B754_infinity true \/ (fin x /\ R64 x <= - c).

Lemma sign_pos (x : f64) : 0 < R64 x -> Bsign x = false.
Proof.
  destruct x as [|s| |s m e ?]; cbn; try lra. destruct s; [|reflexivity]. intros H.
  assert (F2R (Float radix2 (Z.neg m) e) < 0) by (apply F2R_lt_0; reflexivity). cbn in *. lra.
Qed.
Lemma sign_neg (x : f64) : R64 x < 0 -> Bsign x = true.
Proof.
  destruct x as [|s| |s m e ?]; cbn; try lra. destruct s; [reflexivity|]. intros H.
  assert (0 < F2R (Float radix2 (Z.pos m) e)) by (apply F2R_gt_0; reflexivity). cbn in *. lra.
Qed.
Lemma sign_mul (x y : f64) : R64 x * R64 y <> 0 -> xorb (Bsign x) (Bsign y) = Rlt_bool (R64 x * R64 y) 0.
Proof.
  intros H. destruct (Rtotal_order (R64 x) 0) as [Hx|[Hx|Hx]]; [|rewrite Hx in H; lra|];
  (destruct (Rtotal_order (R64 y) 0) as [Hy|[Hy|Hy]]; [|rewrite Hy in H; lra|]).
  - rewrite (sign_neg x Hx), (sign_neg y Hy), Rlt_bool_false; [reflexivity|]. apply Rlt_le. rewrite <- Rmult_opp_opp. apply Rmult_lt_0_compat; lra.
  - rewrite (sign_neg x Hx), (sign_pos y Hy), Rlt_bool_true; [reflexivity|]. rewrite <- (Rmult_0_l (R64 y)). apply Rmult_lt_compat_r; lra.
  - rewrite (sign_pos x Hx), (sign_neg y Hy), Rlt_bool_true; [reflexivity|]. rewrite <- (Rmult_0_r (R64 x)). apply Rmult_lt_compat_l; lra.
  - rewrite (sign_pos x Hx), (sign_pos y Hy), Rlt_bool_false; [reflexivity|]. apply Rlt_le, Rmult_lt_0_compat; lra.
Qed.

Lemma inf_of (x : f64) s : B2SF x = SpecFloat.S754_infinity s -> x = B754_infinity s.
Proof. destruct x; cbn; intros [= E]; subst; reflexivity. Qed.

Lemma fmul_pos x y e : fin x -> fin y -> (-1074 <= e)%Z -> bpow radix2 e <= R64 x * R64 y -> huge_pos (bpow radix2 e) (fmul x y).
Proof.
  intros Hx Hy He H. pose proof (bpow_gt_0 radix2 e) as P. pose proof (Bmult_correct 53 1024 _ _ mode_NE x y) as C.
  cbn [round_mode] in C. fold (rnd (R64 x * R64 y)) in C. destruct (Rlt_bool _ _).
  - right. destruct C as (C1 & C2 & _). unfold fin, fmul in *. rewrite Hx, Hy in C2. split; [exact C2|].
    rewrite C1. rewrite <- (rnd_bpow e He). now apply rnd_le.
  - left. apply inf_of. unfold fmul. rewrite C, sign_mul, Rlt_bool_false by lra. reflexivity.
Qed.
Lemma fmul_neg x y e : fin x -> fin y -> (-1074 <= e)%Z -> R64 x * R64 y <= - bpow radix2 e -> huge_neg (bpow radix2 e) (fmul x y).
Proof.
  intros Hx Hy He H. pose proof (bpow_gt_0 radix2 e) as P. pose proof (Bmult_correct 53 1024 _ _ mode_NE x y) as C.
  cbn [round_mode] in C. fold (rnd (R64 x * R64 y)) in C. destruct (Rlt_bool _ _).
  - right. destruct C as (C1 & C2 & _). unfold fin, fmul in *. rewrite Hx, Hy in C2. split; [exact C2|].
    rewrite C1. rewrite <- (rnd_bpow e He), <- rnd_opp. now apply rnd_le.
  - left. apply inf_of. unfold fmul. rewrite C, sign_mul, Rlt_bool_true by lra. reflexivity.
Qed.
Lemma fmul_half_pos x e : (-1074 <= e)%Z -> huge_pos (bpow radix2 (e + 1)) x -> huge_pos (bpow radix2 e) (fmul x fhalf).
Proof.
  intros He [->|[F H]]; [left; reflexivity|]. apply fmul_pos; [exact F|reflexivity|exact He|].
  rewrite fhalf_R. rewrite bpow_plus in H. change (bpow radix2 1) with 2 in H. lra.
Qed.
Lemma fmul_half_neg x e : (-1074 <= e)%Z -> huge_neg (bpow radix2 (e + 1)) x -> huge_neg (bpow radix2 e) (fmul x fhalf).
Proof.
  intros He [->|[F H]]; [left; reflexivity|]. apply fmul_neg; [exact F|reflexivity|exact He|].
  rewrite fhalf_R. rewrite bpow_plus in H. change (bpow radix2 1) with 2 in H. lra.
Qed.

Lemma add_huge_pos v a : in_unit v -> huge_pos 1 a -> constrain1 (fadd v a) = f1.
Proof.
  intros [Hv [H0 H1]] [->|[F H]].
  - destruct v as [|s| |s m e ?]; try discriminate; reflexivity.
  - pose proof (Bplus_correct 53 1024 _ _ mode_NE v a Hv F) as C. cbn [round_mode] in C. fold (rnd (R64 v + R64 a)) in C.
    destruct (Rlt_bool _ _).
    + destruct C as (C1 & C2 & _). assert (G : 1 <= R64 (fadd v a)).
      { unfold fadd. rewrite C1. rewrite <- (rnd_Z 1) by lia. apply rnd_le. cbv beta in *. lra. }
      destruct G as [G|G].
      * apply constrain1_above. right. split; [exact C2|exact G].
      * rewrite constrain1_in by (split; [exact C2|cbv beta in *; lra]). apply R64_inj_pos; [exact C2|reflexivity|rewrite f1_R; lra|lra].
    + destruct C as [C S1]. apply constrain1_above. left. apply inf_of. unfold fadd. rewrite C, S1, (sign_pos a) by lra. reflexivity.
Qed.
Lemma add_huge_neg v a : in_unit v -> huge_neg 1 a -> R64 (constrain1 (fadd v a)) = 0.
Proof.
  intros [Hv [H0 H1]] [->|[F H]].
  - destruct v as [|s| |s m e ?]; try discriminate; reflexivity.
  - pose proof (Bplus_correct 53 1024 _ _ mode_NE v a Hv F) as C. cbn [round_mode] in C. fold (rnd (R64 v + R64 a)) in C.
    destruct (Rlt_bool _ _).
    + destruct C as (C1 & C2 & _). destruct (constrain1_R (fadd v a) C2) as [_ ->]. apply clamp_lo.
      unfold fadd. rewrite C1. rewrite <- rnd_0. apply rnd_le. cbv beta in *. lra.
    + destruct C as [C S1]. rewrite constrain1_below; [apply f0_R|]. left. apply inf_of. unfold fadd. rewrite C, S1, (sign_neg a) by lra. reflexivity.
Qed.

(* ---------------- one coordinate ---------------- *)
Definition eps : R := bpow radix2 (-50).
Lemma clamp_rnd s : Rabs (clamp (rnd s) - clamp s) <= bpow radix2 (-53).
Proof.
  pose proof (bpow_ge_0 radix2 (-53)) as P. destruct (Rle_dec (Rabs s) 2) as [H|H].
  - eapply Rle_trans; [apply clamp_lip|]. apply (rnd_err s 1); [lia|exact H].
  - unfold Rabs in H. destruct (Rcase_abs s).
    + assert (rnd s <= -2) by (rewrite <- (rnd_Z (-2)) by lia; apply rnd_le; lra). rewrite !clamp_lo, Rminus_diag_eq, Rabs_R0 by lra. exact P.
    + assert (2 <= rnd s) by (rewrite <- (rnd_Z 2) by lia; apply rnd_le; lra). rewrite !clamp_hi, Rminus_diag_eq, Rabs_R0 by lra. exact P.
Qed.
Lemma move_small v (a : f64) d e : in_unit v -> fin a -> Rabs (R64 a) <= 4 -> Rabs (R64 a - d) <= e ->
  moved (e + bpow radix2 (-53)) v (constrain1 (fadd v a)) d.
Proof.
  intros [Hv [H0 H1]] Ha Ba He. unfold moved.
  destruct (fadd_R v a Hv Ha) as [F E].
  { eapply Rle_trans; [apply Rabs_triang|]. rewrite (Rabs_pos_eq (R64 v)) by exact H0. eapply Rle_trans with (bpow radix2 3); [change (bpow radix2 3) with 8; cbv beta in *; lra|apply bpow_le; lia]. }
  destruct (constrain1_R _ F) as [_ ->]. rewrite E.
  replace (clamp (rnd (R64 v + R64 a)) - clamp (R64 v + d)) with ((clamp (R64 v + R64 a) - clamp (R64 v + d)) + (clamp (rnd (R64 v + R64 a)) - clamp (R64 v + R64 a))) by ring.
  eapply Rle_trans; [apply Rabs_triang|]. apply Rplus_le_compat; [|apply clamp_rnd].
  eapply Rle_trans; [apply clamp_lip|]. replace (R64 v + R64 a - (R64 v + d)) with (R64 a - d) by ring. exact He.
Qed.
Lemma move_pos v (a : f64) d e : in_unit v -> huge_pos 1 a -> 1 <= d -> 0 <= e -> moved e v (constrain1 (fadd v a)) d.
Proof.
  intros Hv Ha Hd He. unfold moved. rewrite (add_huge_pos v a Hv Ha), f1_R, clamp_hi, Rminus_diag_eq, Rabs_R0 by (try reflexivity; destruct Hv as [_ ?]; cbv beta in *; lra). exact He.
Qed.
Lemma move_neg v (a : f64) d e : in_unit v -> huge_neg 1 a -> d <= -1 -> 0 <= e -> moved e v (constrain1 (fadd v a)) d.
Proof.
  intros Hv Ha Hd He. unfold moved. rewrite (add_huge_neg v a Hv Ha), clamp_lo, Rminus_diag_eq, Rabs_R0 by (try reflexivity; destruct Hv as [_ ?]; cbv beta in *; lra). exact He.
Qed.
Lemma eps_pos : 0 <= eps. Proof. apply bpow_ge_0. Qed.
Lemma eps_sum : bpow radix2 (-53) = eps / 8 /\ bpow radix2 (-52) = eps / 4 /\ bpow radix2 (-51) = eps / 2 /\ eps <= / 1024.
Proof.
  unfold eps. repeat split; try (change (-53)%Z with (-50 + -3)%Z; rewrite bpow_plus; cbn; lra); try (change (-52)%Z with (-50 + -2)%Z; rewrite bpow_plus; cbn; lra);
    try (change (-51)%Z with (-50 + -1)%Z; rewrite bpow_plus; cbn; lra). change (/ 1024) with (bpow radix2 (-10)). apply bpow_le; lia.
Qed.

Lemma huge_pos_le c c' x : c' <= c -> huge_pos c x -> huge_pos c' x.
Proof. intros H [->|[F G]]; [left; reflexivity|right; split; [exact F|lra]]. Qed.
Lemma huge_neg_le c c' x : c' <= c -> huge_neg c x -> huge_neg c' x.
Proof. intros H [->|[F G]]; [left; reflexivity|right; split; [exact F|lra]]. Qed.

Lemma gauss_move v x a : in_unit v -> fin x -> fin a -> moved eps v (constrain1 (fadd v (fmul (fmul x a) fhalf))) (R64 x * R64 a / 2).
Proof.
  intros Hv Hx Ha. destruct eps_sum as (E1 & E2 & E3 & E4). pose proof eps_pos as Pe. destruct (Rle_dec (Rabs (R64 x * R64 a)) 4) as [H|H].
  - destruct (fmul_R x a Hx Ha) as [F E]. { eapply Rle_trans; [exact H|]. change 4 with (bpow radix2 2). apply bpow_le; lia. }
    pose proof (rnd_err _ 2 ltac:(lia) H) as Er. rewrite <- E in Er. change (2 - 54)%Z with (-52)%Z in Er.
    assert (B : Rabs (R64 (fmul x a)) <= 4) by (rewrite E; apply (rnd_abs_le _ 2); [lia|exact H]).
    assert (B' : Rabs (R64 (fmul x a) * R64 fhalf) <= 2). { rewrite fhalf_R, Rabs_mult, (Rabs_pos_eq (/ 2)) by lra. lra. }
    destruct (fmul_R (fmul x a) fhalf F eq_refl) as [F2 G]. { eapply Rle_trans; [exact B'|]. change 2 with (bpow radix2 1). apply bpow_le; lia. }
    pose proof (rnd_err _ 1 ltac:(lia) B') as Er2. rewrite <- G in Er2. change (1 - 54)%Z with (-53)%Z in Er2. rewrite fhalf_R in Er2.
    assert (B2 : Rabs (R64 (fmul (fmul x a) fhalf)) <= 2) by (rewrite G; apply (rnd_abs_le _ 1); [lia|exact B']).
    eapply Rle_trans; [apply (move_small v _ _ (eps / 4) Hv F2)|lra]; [lra|].
    apply Rabs_le. apply Rabs_le_inv in Er, Er2. lra.
  - unfold Rabs in H. destruct (Rcase_abs (R64 x * R64 a)).
    + apply move_neg; [exact Hv| |lra|apply eps_pos]. apply (huge_neg_le (bpow radix2 1)); [change (bpow radix2 1) with 2; lra|].
      apply fmul_half_neg; [lia|]. apply fmul_neg; try assumption; [lia|]. change (bpow radix2 (1 + 1)) with 4. lra.
    + apply move_pos; [exact Hv| |lra|apply eps_pos]. apply (huge_pos_le (bpow radix2 1)); [change (bpow radix2 1) with 2; lra|].
      apply fmul_half_pos; [lia|]. apply fmul_pos; try assumption; [lia|]. change (bpow radix2 (1 + 1)) with 4. lra.
Qed.

(** The subtraction of 1/2 has a small relative error. *)
Lemma sub_half_rel u : draw01 u -> exists e, Rabs e <= eps / 8 /\ R64 (fsub u fhalf) = (R64 u - / 2) * (1 + e).
Proof.
  intros [Hf [H0 H1]]. pose proof eps_pos as Pe. destruct eps_sum as (E1 & _).
  destruct (fsub_R u fhalf Hf eq_refl) as [_ E].
  { rewrite fhalf_R. eapply Rle_trans with 1; [apply Rabs_le; lra|]. change 1 with (bpow radix2 0). apply bpow_le; lia. }
  rewrite fhalf_R in E. destruct (Rle_dec (/ 4) (R64 u)) as [Q|Q].
  - exists 0. rewrite Rabs_R0. split; [lra|]. rewrite E, Rplus_0_r, Rmult_1_r. apply rnd_id.
    rewrite <- fhalf_R. apply sterbenz; auto with typeclass_instances; try apply generic_format_B2R. rewrite fhalf_R. lra.
  - assert (B : Rabs (R64 u - / 2) <= bpow radix2 (-1)) by (change (bpow radix2 (-1)) with (/ 2); apply Rabs_le; lra).
    pose proof (rnd_err _ (-1) ltac:(lia) B) as Er. change (-1 - 54)%Z with (-53 + -2)%Z in Er. rewrite bpow_plus in Er. change (bpow radix2 (-2)) with (/ 4) in Er.
    exists ((rnd (R64 u - / 2) - (R64 u - / 2)) / (R64 u - / 2)). split.
    + rewrite <- E1. unfold Rdiv. rewrite Rabs_mult, Rabs_inv.
      rewrite <- (Rmult_1_r (bpow radix2 (-53))). apply Rle_trans with (bpow radix2 (-53) * / 4 * 4); [|lra].
      apply Rmult_le_compat; try apply Rabs_pos; [apply Rlt_le, Rinv_0_lt_compat, Rabs_pos_lt; lra|exact Er|].
      rewrite <- (Rinv_inv 4). apply Rinv_le_contravar; [lra|]. rewrite Rabs_left; lra.
    + rewrite E. field. lra.
Qed.

Lemma rand_move v u a : in_unit v -> draw01 u -> fin a -> moved eps v (constrain1 (fadd v (fmul (fsub u fhalf) a))) ((R64 u - / 2) * R64 a).
Proof.
  intros Hv Hu Ha. destruct eps_sum as (E1 & E2 & E3 & E4). pose proof eps_pos as Pe. destruct (sub_half_fin u Hu) as [Fc _].
  destruct (sub_half_rel u Hu) as (e & He & Ec). set (c := fsub u fhalf) in *. set (d := (R64 u - / 2) * R64 a) in *.
  assert (Ed : R64 c * R64 a = d + d * e) by (rewrite Ec; unfold d; ring).
  apply Rabs_le_inv in He.
  destruct (Rle_dec (Rabs d) 2) as [H|H].
  - assert (B : Rabs (R64 c * R64 a) <= 4).
    { rewrite Ed. eapply Rle_trans; [apply Rabs_triang|]. rewrite Rabs_mult. pose proof (Rabs_pos d).
      assert (Rabs e <= 1) by (apply Rabs_le; lra). assert (Rabs d * Rabs e <= Rabs d * 1) by (apply Rmult_le_compat_l; lra). lra. }
    destruct (fmul_R c a Fc Ha) as [F E]. { eapply Rle_trans; [exact B|]. change 4 with (bpow radix2 2). apply bpow_le; lia. }
    pose proof (rnd_err _ 2 ltac:(lia) B) as Er. rewrite <- E in Er. change (2 - 54)%Z with (-52)%Z in Er.
    assert (B2 : Rabs (R64 (fmul c a)) <= 4) by (rewrite E; apply (rnd_abs_le _ 2); [lia|exact B]).
    eapply Rle_trans; [apply (move_small v _ _ (eps / 2) Hv F B2)|lra].
    replace (R64 (fmul c a) - d) with ((R64 (fmul c a) - R64 c * R64 a) + d * e) by (rewrite Ed; ring).
    eapply Rle_trans; [apply Rabs_triang|]. rewrite Rabs_mult. pose proof (Rabs_pos d).
    assert (Rabs e <= eps / 8) by (apply Rabs_le; lra). pose proof (Rabs_pos e).
    assert (Rabs d * Rabs e <= 2 * (eps / 8)) by (apply Rmult_le_compat; lra). lra.
  - assert (Hm : Rabs (d * e) <= Rabs d * / 2). { rewrite Rabs_mult. apply Rmult_le_compat_l; [apply Rabs_pos|]. apply Rabs_le. lra. }
    unfold Rabs in H. destruct (Rcase_abs d).
    + rewrite (Rabs_left d) in Hm by lra. apply Rabs_le_inv in Hm. apply move_neg; [exact Hv| |lra|exact Pe].
      apply (fmul_neg c a 0); try assumption; [lia|]. rewrite Ed. change (bpow radix2 0) with 1. lra.
    + rewrite (Rabs_pos_eq d) in Hm by lra. apply Rabs_le_inv in Hm. apply move_pos; [exact Hv| |lra|exact Pe].
      apply (fmul_pos c a 0); try assumption; [lia|]. rewrite Ed. change (bpow radix2 0) with 1. lra.
Qed.

(* ---------------- the mutation methods ---------------- *)
Lemma mut_from_move pick move i pts m : In m (snd (mut_from pick move i pts)) -> m_new m = move (m_idx m) (m_old m) /\ In (m_old m) pts.
Proof.
  revert i; induction pts as [|p t IH]; intros i; [intros []|]. cbn [mut_from]. specialize (IH (S i)).
  destruct (mut_from pick move (S i) t) as [r l]. cbn in IH. destruct (pick i); cbn.
  - intros [<-|H]; [cbn; auto|]. destruct (IH H). auto.
  - intros H. destruct (IH H). auto.
Qed.

Lemma gaussian_moved rate amount d pts m : fin amount -> (forall i, fin (gd_x (d i)) /\ fin (gd_y (d i))) -> Forall pt_in_unit pts ->
  In m (snd (gaussian_mutate rate amount d pts)) ->
  moved eps (nx (m_old m)) (nx (m_new m)) (R64 (gd_x (d (m_idx m))) * R64 amount / 2) /\
  moved eps (ny (m_old m)) (ny (m_new m)) (R64 (gd_y (d (m_idx m))) * R64 amount / 2).
Proof.
  intros Ha Hd Hp. unfold gaussian_mutate. rewrite gaussian_mut. intros H. apply mut_from_move in H. destruct H as [-> Hin].
  rewrite Forall_forall in Hp. destruct (Hp _ Hin) as [Ux Uy]. destruct (Hd (m_idx m)) as [Dx Dy]. cbn. split; apply gauss_move; assumption.
Qed.
Lemma random_moved rate amount d pts m : fin amount -> (forall i, draw01 (rd_x (d i)) /\ draw01 (rd_y (d i))) -> Forall pt_in_unit pts ->
  In m (snd (random_mutate rate amount d pts)) ->
  moved eps (nx (m_old m)) (nx (m_new m)) ((R64 (rd_x (d (m_idx m))) - / 2) * R64 amount) /\
  moved eps (ny (m_old m)) (ny (m_new m)) ((R64 (rd_y (d (m_idx m))) - / 2) * R64 amount).
Proof.
  intros Ha Hd Hp. unfold random_mutate. rewrite random_mut. intros H. apply mut_from_move in H. destruct H as [-> Hin].
  rewrite Forall_forall in Hp. destruct (Hp _ Hin) as [Ux Uy]. destruct (Hd (m_idx m)) as [Dx Dy]. cbn. split; apply rand_move; assumption.
Qed.
Lemma moved_dist e v w d : 0 <= R64 v <= 1 -> moved e v w d -> Rabs (R64 w - R64 v) <= Rabs d + e.
Proof.
  intros Hv H. unfold moved in H. pose proof (clamp_move _ d Hv) as C. cbv beta in *.
  replace (R64 w - R64 v) with ((clamp (R64 v + d) - R64 v) + (R64 w - clamp (R64 v + d))) by ring.
  eapply Rle_trans; [apply Rabs_triang|]. lra.
Qed.
Lemma moved_le e e' v w d : moved e v w d -> e <= e' -> moved e' v w d.
Proof. unfold moved. intros. lra. Qed.
Lemma moved_change e v w d d' x : moved e v w d -> Rabs (d - d') <= x -> moved (e + x) v w d'.
Proof.
  unfold moved. intros H Hx. replace (R64 w - clamp (R64 v + d')) with ((R64 w - clamp (R64 v + d)) + (clamp (R64 v + d) - clamp (R64 v + d'))) by ring.
  eapply Rle_trans; [apply Rabs_triang|]. apply Rplus_le_compat; [exact H|]. eapply Rle_trans; [apply clamp_lip|].
  replace (R64 v + d - (R64 v + d')) with (d - d') by ring. exact Hx.
Qed.

(* ---------------- rates ---------------- *)
Lemma rnd32_rel x : bpow radix2 (-126) <= Rabs x -> exists e, Rabs e <= bpow radix2 (-24) /\ rnd32 x = x * (1 + e).
Proof.
  intros H. destruct (relative_error_N_FLT_ex radix2 (-149) 24 ltac:(reflexivity) (fun z => negb (Z.even z)) x) as (e & He & E).
  { exact H. }
  exists e. split; [|exact E]. eapply Rle_trans; [exact He|]. change (/ 2) with (bpow radix2 (-1)). rewrite <- bpow_plus. apply bpow_le. lia.
Qed.
Lemma f32div_R x y : fin32 x -> fin32 y -> R32 y <> 0 -> Rabs (R32 x / R32 y) <= bpow radix2 127 ->
  fin32 (f32div x y) /\ R32 (f32div x y) = rnd32 (R32 x / R32 y).
Proof.
  intros Hx Hy Hn Hb. pose proof (Bdiv_correct 24 128 _ _ mode_NE x y Hn) as C.
  cbn [round_mode] in C. fold (rnd32 (R32 x / R32 y)) in C.
  rewrite (lt_128 _ 127) in C by (lia || exact Hb). destruct C as (C1 & C2 & _).
  unfold fin32 in *. rewrite Hx in C2. split; assumption.
Qed.
Lemma f32lt_R x y : fin32 x -> fin32 y -> f32lt x y = Rlt_bool (R32 x) (R32 y).
Proof. intros. apply Bltb_correct; assumption. Qed.

Lemma default_rate n : (1 <= n <= 2 ^ 62)%Z -> fin32 (default_gaussian_rate n) /\ Rabs (R32 (default_gaussian_rate n) * (IZR n / 2) - 1) <= bpow radix2 (-22).
Proof.
  intros Hn. unfold default_gaussian_rate.
  assert (Hn1 : 1 <= IZR n) by (apply IZR_le; lia). assert (Hn2 : IZR n <= bpow radix2 62) by (change (bpow radix2 62) with (IZR (2 ^ 62)); apply IZR_le; lia).
  destruct (f32_dy_R 2 0) as [F2 E2]. { change (bpow radix2 0) with 1. rewrite Rmult_1_r, Rabs_pos_eq by lra. change 2 with (bpow radix2 1). apply bpow_le; lia. }
  rewrite rnd32_dy in E2 by lia. change (bpow radix2 0) with 1 in E2. rewrite Rmult_1_r in E2.
  destruct (f32_dy_R n 0) as [Fn En]. { change (bpow radix2 0) with 1. rewrite Rmult_1_r, Rabs_pos_eq by lra. eapply Rle_trans; [exact Hn2|apply bpow_le; lia]. }
  change (bpow radix2 0) with 1 in En. rewrite Rmult_1_r in En.
  assert (H126 : bpow radix2 (-126) <= bpow radix2 (-70)) by (apply bpow_le; lia). assert (H70 : bpow radix2 (-70) <= 1) by (change 1 with (bpow radix2 0); apply bpow_le; lia).
  destruct (rnd32_rel (IZR n)) as (e1 & He1 & E1). { rewrite Rabs_pos_eq; lra. }
  assert (P24 : 0 < bpow radix2 (-24) <= / 1024). { split; [apply bpow_gt_0|]. change (/ 1024) with (bpow radix2 (-10)). apply bpow_le; lia. }
  pose proof (Rabs_le_inv _ _ He1) as B1. rewrite E1 in En.
  assert (Hc : IZR n / 2 <= R32 (f32_dy n 0) <= 2 * IZR n). { rewrite En. split; [apply Rle_trans with (IZR n * (/ 2)); [lra|apply Rmult_le_compat_l; lra]|rewrite (Rmult_comm 2); apply Rmult_le_compat_l; lra]. }
  set (c := R32 (f32_dy n 0)) in *.
  assert (Hq : bpow radix2 (-70) <= 2 / c <= 4).
  { split.
    - apply Rmult_le_reg_r with c; [lra|]. unfold Rdiv. rewrite Rmult_assoc, Rinv_l, Rmult_1_r by lra.
      apply Rle_trans with (bpow radix2 (-70) * bpow radix2 63); [apply Rmult_le_compat_l; [apply bpow_ge_0|]|rewrite <- bpow_plus; change 2 with (bpow radix2 1); apply bpow_le; lia].
      change 63%Z with (62 + 1)%Z. rewrite bpow_plus. change (bpow radix2 1) with 2. lra.
    - apply Rmult_le_reg_r with c; [lra|]. unfold Rdiv. rewrite Rmult_assoc, Rinv_l, Rmult_1_r by lra. lra. }
  pose proof (bpow_gt_0 radix2 (-70)) as P70. destruct (f32div_R _ _ F2 Fn) as [Fr Er]. { change (c <> 0). apply Rgt_not_eq. lra. }
  { fold c. rewrite E2, Rabs_pos_eq by lra. apply Rle_trans with 4; [lra|]. change 4 with (bpow radix2 2). apply bpow_le; lia. }
  split; [exact Fr|]. fold c in Er. rewrite E2 in Er. rewrite Er.
  destruct (rnd32_rel (2 / c)) as (e2 & He2 & E2'). { rewrite Rabs_pos_eq; lra. }
  pose proof (Rabs_le_inv _ _ He2) as B2. rewrite E2'. rewrite En.
  replace (2 / (IZR n * (1 + e1)) * (1 + e2) * (IZR n / 2) - 1) with ((e2 - e1) / (1 + e1)) by (field; lra).
  unfold Rdiv. rewrite Rabs_mult. change (-22)%Z with (-24 + 2)%Z. rewrite bpow_plus. change (bpow radix2 2) with (2 * 2). rewrite <- Rmult_assoc.
  apply Rmult_le_compat; try apply Rabs_pos; [apply Rabs_le; lra|]. rewrite Rabs_inv, Rabs_pos_eq by lra.
  rewrite <- (Rinv_inv 2). apply Rinv_le_contravar; lra.
Qed.
Lemma default_amount : fin default_gaussian_amount /\ Rabs (R64 default_gaussian_amount - 3 / 10) <= bpow radix2 (-55).
Proof.
  unfold default_gaussian_amount. destruct (of_Z_R 3 ltac:(lia)) as [F3 E3]. destruct (of_Z_R 10 ltac:(lia)) as [F10 E10].
  assert (B : Rabs (3 / 10) <= bpow radix2 (-1)) by (change (bpow radix2 (-1)) with (/ 2); apply Rabs_le; lra).
  destruct (fdiv_R _ _ F3 F10) as [F E]; [rewrite E10; lra|rewrite E3, E10; eapply Rle_trans; [exact B|apply bpow_le; lia]|].
  split; [exact F|]. rewrite E, E3, E10. apply (rnd_err _ (-1)); [lia|exact B].
Qed.

(* ---------------- the spaced generator ---------------- *)
Lemma rnd_unit_err x : 0 <= x <= 1 -> Rabs (rnd x - x) <= bpow radix2 (-54).
Proof. intros H. apply (rnd_err x 0); [lia|]. change (bpow radix2 0) with 1. apply Rabs_le. lra. Qed.

Fixpoint temps (dec temp : f64) (k : nat) : f64 := match k with O => temp | S k' => temps dec (fmul temp dec) k' end.
Lemma temps_S dec temp k : temps dec temp (S k) = fmul (temps dec temp k) dec.
Proof. revert temp; induction k as [|k IH]; intros temp; [reflexivity|]. cbn [temps] in *. apply IH. Qed.
Lemma temps_unit dec k : in_unit dec -> in_unit (temps dec f1 k).
Proof. intros Hd. induction k as [|k IH]; [apply f1_in|]. rewrite temps_S. apply fmul_unit; assumption. Qed.
Lemma temps_err dec k : in_unit dec -> Rabs (R64 (temps dec f1 k) - R64 dec ^ k) <= INR k * bpow radix2 (-54).
Proof.
  intros Hd. pose proof Hd as [Fd [D0 D1]]. induction k as [|k IH].
  - cbn [temps pow INR]. rewrite f1_R, Rminus_diag_eq, Rabs_R0 by reflexivity. lra.
  - rewrite temps_S, S_INR. destruct (temps_unit dec k Hd) as [Ft [T0 T1]]. set (t := temps dec f1 k) in *. cbv beta in *.
    assert (P : 0 <= R64 t * R64 dec <= 1). { split; [apply Rmult_le_pos; assumption|]. apply Rle_trans with (1 * 1); [apply Rmult_le_compat; assumption|lra]. }
    destruct (fmul_R t dec Ft Fd) as [_ E]. { rewrite Rabs_pos_eq by lra. apply Rle_trans with (bpow radix2 0); [exact (proj2 P)|apply bpow_le; lia]. }
    rewrite E. cbn [pow]. replace (rnd (R64 t * R64 dec) - R64 dec * R64 dec ^ k) with ((R64 t - R64 dec ^ k) * R64 dec + (rnd (R64 t * R64 dec) - R64 t * R64 dec)) by ring.
    eapply Rle_trans; [apply Rabs_triang|]. rewrite Rmult_plus_distr_r, Rmult_1_l. apply Rplus_le_compat; [|apply rnd_unit_err, P].
    rewrite Rabs_mult, (Rabs_pos_eq (R64 dec)) by exact D0. eapply Rle_trans; [|exact IH]. rewrite <- (Rmult_1_r (Rabs (R64 t - R64 dec ^ k))) at 2.
    apply Rmult_le_compat_l; [apply Rabs_pos|exact D1].
Qed.

Lemma spaced_loop_app dec ds d : forall temp pts, spaced_loop dec temp (ds ++ [d]) pts =
  match spaced_loop dec temp ds pts with None => None | Some p => spaced_iter (temps dec temp (length ds)) d p end.
Proof.
  induction ds as [|a ds IH]; intros temp pts; cbn [app spaced_loop length temps].
  - destruct (spaced_iter temp d pts); reflexivity.
  - destruct (spaced_iter temp a pts); [apply IH|reflexivity].
Qed.
Lemma spaced_generate_app dec n init ds d : (1 <= n)%Z -> spaced_generate dec n init (ds ++ [d]) =
  match spaced_generate dec n init ds with None => None | Some p => spaced_iter (temps dec f1 (length ds)) d p end.
Proof.
  intros Hn. unfold spaced_generate. assert (L : (n <=? 0)%Z = false) by (apply Z.leb_gt; lia). destruct ds as [|a ds].
  - cbn [app length temps]. rewrite L. cbn [spaced_loop]. destruct (spaced_iter f1 d (random_points n init)); reflexivity.
  - cbn [app]. rewrite L. apply (spaced_loop_app dec (a :: ds) d).
Qed.

Lemma spaced_moved dec n init ds d : (1 <= n)%Z -> in_unit dec ->
  (forall i, draw01 (fst (init i)) /\ draw01 (snd (init i))) -> Forall (sdraw_ok (Z.to_nat n)) (ds ++ [d]) ->
  let e := eps + INR (length ds) * bpow radix2 (-55) in
  exists before after p p', spaced_generate dec n init ds = Some before /\ spaced_generate dec n init (ds ++ [d]) = Some after /\
    (forall j, j <> sd_i d -> nth_error after j = nth_error before j) /\
    nth_error before (sd_i d) = Some p /\ nth_error after (sd_i d) = Some p' /\ pt_in_unit p /\
    (p' = p \/ (moved e (nx p) (nx p') ((R64 (sd_x d) - / 2) * R64 dec ^ length ds) /\ moved e (ny p) (ny p') ((R64 (sd_y d) - / 2) * R64 dec ^ length ds))).
Proof.
  intros Hn Hd Hi F. cbv zeta. apply Forall_app in F. destruct F as [F1 F2]. apply Forall_inv in F2. destruct F2 as (Li & Dx & Dy).
  destruct (spaced_generate_ok dec n init ds Hn Hd Hi F1) as (b & Eb & Lb & Ub). rewrite spaced_generate_app, Eb by exact Hn.
  assert (Lb' : (sd_i d < length b)%nat) by lia.
  destruct (nth_error b (sd_i d)) as [p|] eqn:Ep; [|apply nth_error_None in Ep; lia].
  assert (Up : pt_in_unit p) by (rewrite Forall_forall in Ub; apply Ub; eapply nth_error_In; exact Ep).
  unfold spaced_iter. rewrite Ep. cbv zeta. set (t := temps dec f1 (length ds)). set (p1 := constrain _).
  destruct (temps_unit dec (length ds) Hd) as [Ft _]. fold t in Ft. pose proof (temps_err dec (length ds) Hd) as Te. fold t in Te.
  destruct (flt (closest_to p b) (closest_to p1 b)).
  - exists b, (upd (sd_i d) p1 b), p, p1. repeat split; try assumption; try (apply Up).
    + intros j Hj. rewrite upd_nth. destruct (Nat.eqb_spec (sd_i d) j); [congruence|reflexivity].
    + rewrite upd_nth, Nat.eqb_refl. destruct (Nat.ltb_spec (sd_i d) (length b)); [reflexivity|lia].
    + right. assert (K : forall u, draw01 u -> Rabs ((R64 u - / 2) * R64 t - (R64 u - / 2) * R64 dec ^ length ds) <= INR (length ds) * bpow radix2 (-55)).
      { intros u [_ Hu]. rewrite <- Rmult_minus_distr_l, Rabs_mult. change (-55)%Z with (-1 + -54)%Z. rewrite bpow_plus. change (bpow radix2 (-1)) with (/ 2).
        replace (INR (length ds) * (/ 2 * bpow radix2 (-54))) with (/ 2 * (INR (length ds) * bpow radix2 (-54))) by ring.
        apply Rmult_le_compat; try apply Rabs_pos; [apply Rabs_le; cbv beta in *; lra|exact Te]. }
      destruct Up as [Ux Uy]. split; [apply (moved_change eps _ _ ((R64 (sd_x d) - / 2) * R64 t))|apply (moved_change eps _ _ ((R64 (sd_y d) - / 2) * R64 t))]; try (apply K; assumption); apply rand_move; assumption.
  - exists b, b, p, p. repeat split; try assumption; try (apply Up). left; reflexivity.
Qed.

(* ---------------- cooling ---------------- *)
Lemma exp_lip a b : a <= 0 -> b <= 0 -> Rabs (exp a - exp b) <= Rabs (a - b).
Proof.
  assert (K : forall a b, a <= b -> b <= 0 -> 0 <= exp b - exp a <= b - a).
  { intros a0 b0 H H0. assert (E : exp a0 <= exp b0) by (destruct H as [H| ->]; [left; now apply exp_increasing|right; reflexivity]).
    split; [lra|]. assert (B : exp b0 <= 1). { rewrite <- exp_0. destruct H0 as [H0| ->]; [left; now apply exp_increasing|right; reflexivity]. }
    assert (I : 1 + (a0 - b0) <= exp (a0 - b0)). { destruct (Req_dec (a0 - b0) 0) as [->|N]; [rewrite exp_0; lra|left; now apply exp_ineq1]. }
    assert (M : exp a0 = exp b0 * exp (a0 - b0)) by (rewrite <- exp_plus; f_equal; ring). rewrite M.
    replace (exp b0 - exp b0 * exp (a0 - b0)) with (exp b0 * (1 - exp (a0 - b0))) by ring.
    pose proof (exp_pos b0). assert (Q : 0 <= 1 - exp (a0 - b0)).
    { assert (exp (a0 - b0) <= 1); [|lra]. rewrite <- exp_0. assert (H5 : a0 - b0 <= 0) by lra. destruct H5 as [H2|H2]; [left; now apply exp_increasing|right; now rewrite H2]. }
    apply Rle_trans with (1 * (1 - exp (a0 - b0))); [apply Rmult_le_compat_r; lra|lra]. }
  intros Ha Hb. destruct (Rle_dec a b) as [H|H].
  - destruct (K a b H Hb). rewrite (Rabs_minus_sym (exp a)), (Rabs_minus_sym a), !Rabs_pos_eq by lra. lra.
  - destruct (K b a ltac:(lra) Ha). rewrite !Rabs_pos_eq by lra. lra.
Qed.
Lemma ln_lip x y c : 0 < c -> c <= x -> c <= y -> Rabs (ln x - ln y) <= Rabs (x - y) / c.
Proof.
  intros Hc. assert (K : forall x y, c <= x -> x <= y -> 0 <= ln y - ln x <= (y - x) / c).
  { intros a b Ha H. assert (L : ln a <= ln b) by (destruct H as [H| ->]; [left; apply ln_increasing; lra|right; reflexivity]). split; [lra|].
    rewrite <- (Rplus_minus (ln a) (ln b)) at 1. replace (ln a + (ln b - ln a) - ln a) with (ln (b / a)) by (unfold Rdiv; rewrite ln_mult, ln_Rinv by (try apply Rinv_0_lt_compat; lra); ring).
    assert (I : ln (b / a) <= b / a - 1).
    { destruct (Req_dec (ln (b / a)) 0) as [Z|Z]; [rewrite Z|].
      - assert (1 <= b / a); [|lra]. apply Rmult_le_reg_r with a; [lra|]. unfold Rdiv. rewrite Rmult_assoc, Rinv_l by lra. lra.
      - pose proof (exp_ineq1 _ Z) as X. rewrite exp_ln in X by (apply Rdiv_lt_0_compat; lra). lra. }
    apply Rle_trans with (1 := I). apply Rmult_le_reg_r with c; [exact Hc|]. unfold Rdiv. rewrite (Rmult_assoc (b - a)), Rinv_l, Rmult_1_r by lra.
    replace (b * / a - 1) with ((b - a) * / a) by (field; lra). rewrite Rmult_assoc. rewrite <- (Rmult_1_r (b - a)) at 2. apply Rmult_le_compat_l; [lra|].
    apply Rmult_le_reg_l with a; [lra|]. rewrite <- Rmult_assoc, Rinv_r by lra. lra. }
  intros Hx Hy. destruct (Rle_dec x y) as [H|H].
  - destruct (K x y Hx H). rewrite (Rabs_minus_sym (ln x)), (Rabs_minus_sym x), !Rabs_pos_eq by lra. lra.
  - destruct (K y x Hy ltac:(lra)). rewrite !Rabs_pos_eq by lra. lra.
Qed.
Lemma ln_50 : -5 <= ln (/ 50) <= 0.
Proof.
  assert (E : 50 <= exp 5).
  { pose proof (exp_ineq1 (/ 2) ltac:(lra)) as H. replace 5 with (/ 2 + / 2 + (/ 2 + / 2 + (/ 2 + / 2 + (/ 2 + / 2 + (/ 2 + / 2))))) by lra. rewrite !exp_plus.
    set (x := exp (/ 2)) in *. assert (Q : 9 / 4 <= x * x) by (apply Rle_trans with (3 / 2 * (3 / 2)); [lra|apply Rmult_le_compat; lra]). set (y := x * x) in *.
    assert (Q2 : 5 <= y * y) by (apply Rle_trans with (9 / 4 * (9 / 4)); [lra|apply Rmult_le_compat; lra]).
    assert (Q3 : 11 <= y * (y * y)) by (apply Rle_trans with (9 / 4 * 5); [lra|apply Rmult_le_compat; lra]).
    assert (Q4 : 24 <= y * (y * (y * y))) by (apply Rle_trans with (9 / 4 * 11); [lra|apply Rmult_le_compat; lra]).
    apply Rle_trans with (9 / 4 * 24); [lra|apply Rmult_le_compat; lra]. }
  rewrite ln_Rinv by lra. split.
  - assert (ln 50 <= 5); [|lra]. rewrite <- (ln_exp 5). destruct E as [E|<-]; [left; apply ln_increasing; lra|right; reflexivity].
  - assert (0 < ln 50); [|lra]. rewrite <- ln_1. apply ln_increasing; lra.
Qed.

Lemma min_over_start_R : fin min_over_start /\ Rabs (R64 min_over_start - / 50) <= bpow radix2 (-59).
Proof.
  unfold min_over_start. destruct (of_Z_R 2 ltac:(lia)) as [F2 E2]. destruct (of_Z_R 100 ltac:(lia)) as [F100 E100].
  assert (B : Rabs (2 / 100) <= bpow radix2 (-5)) by (change (bpow radix2 (-5)) with (/ 32); apply Rabs_le; lra).
  destruct (fdiv_R _ _ F2 F100) as [F E]; [rewrite E100; lra|rewrite E2, E100; eapply Rle_trans; [exact B|apply bpow_le; lia]|].
  split; [exact F|]. rewrite E, E2, E100. replace (/ 50) with (2 / 100) by lra. apply (rnd_err _ (-5)); [lia|exact B].
Qed.

Lemma decrement_R pow N : pow_ok pow -> (1 <= N <= 2 ^ 53)%Z ->
  in_unit (spaced_decrement pow N) /\ Rabs (R64 (spaced_decrement pow N) - Rpower (/ 50) (/ IZR N)) <= eps.
Proof.
  intros Hp HN. unfold spaced_decrement. destruct min_over_start_R as [Fm Em]. set (x := min_over_start) in *.
  assert (HN1 : 1 <= IZR N) by (apply IZR_le; lia). destruct (of_Z_R N ltac:(lia)) as [FN EN].
  assert (I1 : 0 < / IZR N <= 1). { split; [apply Rinv_0_lt_compat; lra|]. rewrite <- Rinv_1. apply Rinv_le_contravar; lra. }
  destruct (fdiv_R f1 _ f1_fin FN) as [Fy Ey]; [rewrite EN; lra| |].
  { rewrite f1_R, EN. unfold Rdiv. rewrite Rmult_1_l, Rabs_pos_eq by lra. apply Rle_trans with (bpow radix2 0); [exact (proj2 I1)|apply bpow_le; lia]. }
  rewrite f1_R, EN in Ey. unfold Rdiv in Ey. rewrite Rmult_1_l in Ey. set (y := fdiv f1 (f64_of_Z N)) in *.
  assert (By : 0 <= R64 y <= 1). { rewrite Ey. split; [rewrite <- rnd_0|rewrite <- (rnd_Z 1) by lia]; apply rnd_le; lra. }
  pose proof (rnd_unit_err (/ IZR N) ltac:(lra)) as Ry. rewrite <- Ey in Ry. apply Rabs_le_inv in Ry.
  assert (P59 : bpow radix2 (-59) = bpow radix2 (-54) / 32) by (change (-59)%Z with (-54 + -5)%Z; rewrite bpow_plus; change (bpow radix2 (-5)) with (/ 32); lra).
  assert (P54 : bpow radix2 (-54) <= / 65536) by (change (/ 65536) with (bpow radix2 (-16)); apply bpow_le; lia).
  assert (P51 : bpow radix2 (-51) = 8 * bpow radix2 (-54)) by (change (-51)%Z with (3 + -54)%Z; rewrite bpow_plus; change (bpow radix2 3) with 8; lra).
  assert (P50 : eps = 16 * bpow radix2 (-54)) by (unfold eps; change (-50)%Z with (4 + -54)%Z; rewrite bpow_plus; change (bpow radix2 4) with 16; lra).
  pose proof (bpow_gt_0 radix2 (-54)) as Pp. pose proof (Rabs_le_inv _ _ Em) as Bm.
  assert (Bx : / 64 <= R64 x <= 1) by lra.
  destruct (Hp x y Fm Fy) as (Fp & Bp & Ep); [cbv beta in *; lra|exact By|]. split; [split; assumption|].
  assert (K : Rabs (Rpower (R64 x) (R64 y) - Rpower (/ 50) (/ IZR N)) <= 8 * bpow radix2 (-54)).
  { destruct ln_50 as [L1 L2]. pose proof (ln_lip (R64 x) (/ 50) (/ 64) ltac:(lra) ltac:(lra) ltac:(lra)) as LL.
    assert (LL' : Rabs (ln (R64 x) - ln (/ 50)) <= 2 * bpow radix2 (-54)). { eapply Rle_trans; [exact LL|]. unfold Rdiv. rewrite Rinv_inv. lra. }
    assert (Lx : ln (R64 x) <= 0). { rewrite <- ln_1. destruct (proj2 Bx) as [B|B]; [left; apply ln_increasing; lra|right; now rewrite B]. }
    unfold Rpower. eapply Rle_trans; [apply exp_lip|].
    - replace 0 with (R64 y * 0) by ring. apply Rmult_le_compat_l; [apply By|exact Lx].
    - replace 0 with (/ IZR N * 0) by ring. apply Rmult_le_compat_l; lra.
    - replace (R64 y * ln (R64 x) - / IZR N * ln (/ 50)) with (R64 y * (ln (R64 x) - ln (/ 50)) + (R64 y - / IZR N) * ln (/ 50)) by ring.
      eapply Rle_trans; [apply Rabs_triang|]. rewrite !Rabs_mult.
      assert (A1 : Rabs (R64 y) * Rabs (ln (R64 x) - ln (/ 50)) <= 1 * (2 * bpow radix2 (-54))) by (apply Rmult_le_compat; try apply Rabs_pos; [rewrite Rabs_pos_eq; apply By|exact LL']).
      assert (A2 : Rabs (R64 y - / IZR N) * Rabs (ln (/ 50)) <= bpow radix2 (-54) * 5) by (apply Rmult_le_compat; try apply Rabs_pos; apply Rabs_le; lra).
      lra. }
  apply Rabs_le. apply Rabs_le_inv in K. apply Rabs_le_inv in Ep. cbv beta in *. lra.
Qed.

Lemma pow_lip a b k : 0 <= a <= 1 -> 0 <= b <= 1 -> Rabs (a ^ k - b ^ k) <= INR k * Rabs (a - b).
Proof.
  intros Ha Hb. induction k as [|k IH]; [cbn; rewrite Rminus_diag_eq, Rabs_R0 by reflexivity; lra|].
  rewrite S_INR. cbn [pow]. replace (a * a ^ k - b * b ^ k) with (a * (a ^ k - b ^ k) + (a - b) * b ^ k) by ring.
  eapply Rle_trans; [apply Rabs_triang|]. rewrite !Rabs_mult. rewrite Rmult_plus_distr_r, Rmult_1_l. apply Rplus_le_compat.
  - eapply Rle_trans; [|exact IH]. rewrite <- Rmult_1_l. apply Rmult_le_compat_r; [apply Rabs_pos|]. rewrite Rabs_pos_eq; lra.
  - rewrite <- Rmult_1_r. apply Rmult_le_compat_l; [apply Rabs_pos|]. rewrite Rabs_pos_eq by (apply pow_le; lra).
    rewrite <- (pow1 k). apply pow_incr. exact Hb.
Qed.

Lemma cooling pow N n init d k : pow_ok pow -> (1 <= N <= 2 ^ 53)%Z -> (1 <= n)%Z -> (k < Z.to_nat N)%nat ->
  (forall i, draw01 (fst (init i)) /\ draw01 (snd (init i))) -> (forall i, sdraw_ok (Z.to_nat n) (d i)) ->
  let run k := spaced_generate (spaced_decrement pow N) n init (map d (seq 0 k)) in
  let e := (INR k + 1) * eps in
  let t := Rpower (/ 50) (INR k / IZR N) in
  exists before after p p', run k = Some before /\ run (S k) = Some after /\
    (forall j, j <> sd_i (d k) -> nth_error after j = nth_error before j) /\
    nth_error before (sd_i (d k)) = Some p /\ nth_error after (sd_i (d k)) = Some p' /\ pt_in_unit p /\
    (p' = p \/ (moved e (nx p) (nx p') ((R64 (sd_x (d k)) - / 2) * t) /\ moved e (ny p) (ny p') ((R64 (sd_y (d k)) - / 2) * t))).
Proof.
  intros Hp HN Hn Hk Hi Hd. cbv zeta. destruct (decrement_R pow N Hp HN) as [Ud Ed]. set (dec := spaced_decrement pow N) in *.
  destruct (spaced_moved dec n init (map d (seq 0 k)) (d k) Hn Ud Hi) as (b & a & p & p' & E1 & E2 & Fr & Np & Np' & Up & M).
  { apply Forall_app. split; [apply Forall_map, Forall_forall; intros; apply Hd|constructor; [apply Hd|constructor]]. }
  rewrite map_length, seq_length in M. exists b, a, p, p'. split; [exact E1|]. split.
  { rewrite <- E2. f_equal. rewrite seq_S, map_app. reflexivity. }
  split; [exact Fr|]. split; [exact Np|]. split; [exact Np'|]. split; [exact Up|].
  destruct M as [->|[Mx My]]; [left; reflexivity|right].
  assert (HN1 : 1 <= IZR N) by (apply IZR_le; lia).
  assert (Et : Rpower (/ 50) (INR k / IZR N) = Rpower (/ 50) (/ IZR N) ^ k).
  { unfold Rdiv. rewrite <- Rpower_pow by apply exp_pos. rewrite Rpower_mult. f_equal. ring. }
  assert (Bt : 0 <= Rpower (/ 50) (/ IZR N) <= 1).
  { split; [left; apply exp_pos|]. unfold Rpower. rewrite <- exp_0. destruct ln_50 as [_ L]. assert (Q : / IZR N * ln (/ 50) <= 0).
    { replace 0 with (/ IZR N * 0) by ring. apply Rmult_le_compat_l; [left; apply Rinv_0_lt_compat; lra|exact L]. }
    destruct Q as [Q| ->]; [left; now apply exp_increasing|right; reflexivity]. }
  pose proof (pow_lip (R64 dec) (Rpower (/ 50) (/ IZR N)) k (proj2 Ud) Bt) as PL.
  pose proof (pos_INR k) as PK. pose proof eps_pos as Pe.
  assert (PL' : Rabs (R64 dec ^ k - Rpower (/ 50) (/ IZR N) ^ k) <= INR k * eps). { eapply Rle_trans; [exact PL|]. apply Rmult_le_compat_l; assumption. }
  assert (K : forall u, draw01 u -> Rabs ((R64 u - / 2) * R64 dec ^ k - (R64 u - / 2) * Rpower (/ 50) (/ IZR N) ^ k) <= / 2 * (INR k * eps)).
  { intros u [_ Hu]. rewrite <- Rmult_minus_distr_l, Rabs_mult. apply Rmult_le_compat; try apply Rabs_pos; [apply Rabs_le; cbv beta in *; lra|exact PL']. }
  assert (P55 : bpow radix2 (-55) = eps / 32). { unfold eps. change (-55)%Z with (-50 + -5)%Z. rewrite bpow_plus. change (bpow radix2 (-5)) with (/ 32). lra. }
  rewrite P55 in Mx, My. rewrite Et.
  assert (Q : 0 <= INR k * eps) by (apply Rmult_le_pos; assumption).
  destruct (Hd k) as (_ & Dx & Dy).
  split; (eapply moved_le; [eapply moved_change; [eassumption|apply K; assumption]|lra]).
Qed.
(* ---------------- spacing ---------------- *)
Lemma feq_refl_fin (x : f64) : fin x -> feq x x = true.
Proof. intros H. rewrite feq_R by assumption. destruct (Req_bool_spec (R64 x) (R64 x)); [reflexivity|contradiction]. Qed.
Lemma fsub_swap a b : in_unit a -> in_unit b -> R64 (fsub b a) = - R64 (fsub a b).
Proof.
  intros [Ha Ba] [Hb Bb]. assert (H : forall x y : R, 0 <= x <= 1 -> 0 <= y <= 1 -> Rabs (x - y) <= bpow radix2 1023).
  { intros x y Hx Hy. apply Rle_trans with (bpow radix2 0); [change (bpow radix2 0) with 1; apply Rabs_le; lra|apply bpow_le; lia]. }
  destruct (fsub_R a b Ha Hb (H _ _ Ba Bb)) as [_ ->]. destruct (fsub_R b a Hb Ha (H _ _ Bb Ba)) as [_ ->].
  rewrite <- rnd_opp. f_equal. ring.
Qed.
Lemma dist_R p q : pt_in_unit p -> pt_in_unit q -> R64 (dist p q) = rnd (sqrt (rnd (rnd (R64 (fsub (nx p) (nx q)) * R64 (fsub (nx p) (nx q))) + rnd (R64 (fsub (ny p) (ny q)) * R64 (fsub (ny p) (ny q)))))).
Proof.
  intros [Px Py] [Qx Qy]. unfold dist. cbv zeta.
  destruct (fsub_unit _ _ Px Qx) as [Fx Bx]. destruct (fsub_unit _ _ Py Qy) as [Fy By].
  destruct (fsq_unit _ Fx Bx) as [Sx [Sx0 Sx1]]. destruct (fsq_unit _ Fy By) as [Sy [Sy0 Sy1]].
  destruct (fadd_R _ _ Sx Sy) as [Fa Ea].
  - rewrite Rabs_pos_eq by lra. eapply Rle_trans with (bpow radix2 1); [change (bpow radix2 1) with 2; lra|apply bpow_le; lia].
  - assert (Bd : forall z, Rabs z <= 1 -> Rabs (z * z) <= bpow radix2 1023).
    { intros z Hz. rewrite Rabs_mult. pose proof (Rabs_pos z). apply Rle_trans with (bpow radix2 0); [|apply bpow_le; lia]. change (bpow radix2 0) with 1. rewrite <- (Rmult_1_l 1). apply Rmult_le_compat; assumption. }
    destruct (fmul_R _ _ Fx Fx (Bd _ Bx)) as [_ Ex]. destruct (fmul_R _ _ Fy Fy (Bd _ By)) as [_ Ey].
    destruct (fsqrt_R _ Fa) as [_ ->]; [rewrite Ea, <- rnd_0; apply rnd_le; lra|]. rewrite Ea, Ex, Ey. reflexivity.
Qed.
Lemma dist_sym p q : pt_in_unit p -> pt_in_unit q -> R64 (dist p q) = R64 (dist q p).
Proof.
  intros Hp Hq. rewrite !dist_R by assumption. rewrite (fsub_swap (nx q) (nx p)), (fsub_swap (ny q) (ny p)) by (apply Hp || apply Hq).
  rewrite !Rmult_opp_opp. reflexivity.
Qed.
Lemma dist_same p q : pt_in_unit p -> pt_in_unit q -> npeq p q = true -> R64 (dist p q) = 0.
Proof.
  intros Hp Hq E. rewrite dist_R by assumption. unfold npeq in E. apply andb_true_iff in E. destruct E as [Ex Ey].
  assert (K : forall a b, in_unit a -> in_unit b -> feq a b = true -> R64 (fsub a b) = 0).
  { intros a b [Fa Ba] [Fb Bb] H. rewrite feq_R in H by assumption. destruct (Req_bool_spec (R64 a) (R64 b)) as [Q|]; [|discriminate].
    destruct (fsub_R a b Fa Fb) as [_ ->]; [rewrite Q, Rminus_diag_eq, Rabs_R0 by reflexivity; apply bpow_ge_0|]. rewrite Q, Rminus_diag_eq by reflexivity. apply rnd_0. }
  rewrite (K _ _ (proj1 Hp) (proj1 Hq) Ex), (K _ _ (proj2 Hp) (proj2 Hq) Ey). rewrite Rmult_0_l, rnd_0, Rplus_0_l, rnd_0, sqrt_0, rnd_0. reflexivity.
Qed.

Lemma spacing_iter temp d pts pts' : in_unit temp -> draw01 (sd_x d) -> draw01 (sd_y d) -> Forall pt_in_unit pts ->
  spaced_iter temp d pts = Some pts' ->
  (exists j p q, j <> sd_i d /\ nth_error pts' (sd_i d) = Some p /\ nth_error pts' j = Some q /\ npeq q p = true) \/ at_least_as_spaced pts pts'.
Proof.
  intros Ht Hx Hy F E. pose proof E as E0. unfold spaced_iter in E0. destruct (nth_error pts (sd_i d)) as [p|] eqn:Ep; [|discriminate]. clear E0.
  rewrite Forall_forall in F. assert (Up : pt_in_unit p) by (apply F; eapply nth_error_In; exact Ep). rewrite <- Forall_forall in F.
  destruct (spaced_iter_spec temp d pts p (closest_to p pts) Ht Hx Hy F Ep (closest_to_spec p pts Up F)) as (pts2 & E2 & H).
  rewrite E in E2. injection E2 as <-. rewrite Forall_forall in F. destruct H as [->|(p1 & -> & Far & _)].
  { right. intros i j a b Hij Ha Hb. exists i, j, a, b. repeat split; try assumption. lra. }
  assert (U1 : pt_in_unit p1).
  { destruct (spaced_iter_ok temp d pts Ht) as (l & El & _ & Fl); [repeat split; try assumption; try apply Hx; try apply Hy; apply nth_error_Some; congruence|rewrite Forall_forall; exact F|].
    rewrite E in El. injection El as <-. rewrite Forall_forall in Fl. apply Fl. apply (nth_error_In _ (sd_i d)). rewrite upd_nth, Nat.eqb_refl.
    assert (sd_i d < length pts)%nat by (apply nth_error_Some; congruence). destruct (Nat.ltb_spec (sd_i d) (length pts)); [reflexivity|lia]. }
  assert (N1 : nth_error (upd (sd_i d) p1 pts) (sd_i d) = Some p1).
  { rewrite upd_nth, Nat.eqb_refl. assert (sd_i d < length pts)%nat by (apply nth_error_Some; congruence). destruct (Nat.ltb_spec (sd_i d) (length pts)); [reflexivity|lia]. }
  assert (Nj : forall j, j <> sd_i d -> nth_error (upd (sd_i d) p1 pts) j = nth_error pts j).
  { intros j Hj. rewrite upd_nth. destruct (Nat.eqb_spec (sd_i d) j); [congruence|reflexivity]. }
  destruct (existsb (fun j => negb (Nat.eqb j (sd_i d)) && match nth_error pts j with Some q => npeq q p1 | None => false end) (seq 0 (length pts))) eqn:X.
  - left. apply existsb_exists in X. destruct X as (j & _ & X). apply andb_true_iff in X. destruct X as [X1 X2]. destruct (nth_error pts j) as [q|] eqn:Eq; [|discriminate].
    destruct (Nat.eqb_spec j (sd_i d)) as [|Hj]; [discriminate|]. exists j, p1, q. repeat split; try assumption. rewrite Nj by exact Hj. exact Eq.
  - right. assert (Ne : forall j q, j <> sd_i d -> nth_error pts j = Some q -> npeq q p1 = false).
    { intros j q Hj Eq. destruct (npeq q p1) eqn:Q; [|reflexivity]. exfalso. assert (existsb (fun j => negb (Nat.eqb j (sd_i d)) && match nth_error pts j with Some q => npeq q p1 | None => false end) (seq 0 (length pts)) = true); [|congruence].
      apply existsb_exists. exists j. split; [apply in_seq; assert (j < length pts)%nat by (apply nth_error_Some; congruence); lia|]. rewrite Eq, Q. destruct (Nat.eqb_spec j (sd_i d)); [contradiction|reflexivity]. }
    assert (K : forall j q, j <> sd_i d -> nth_error pts j = Some q -> exists i' j' p' q', i' <> j' /\ nth_error pts i' = Some p' /\ nth_error pts j' = Some q' /\ R64 (dist p' q') <= R64 (dist q p1)).
    { intros j q Hj Eq. assert (Uq : pt_in_unit q) by (apply F; eapply nth_error_In; exact Eq). pose proof (Far q (nth_error_In _ _ Eq) (Ne j q Hj Eq)) as Fq.
      rewrite <- Forall_forall in F. destruct (closest_to_spec p pts Up F) as [(r & Ir & Nr & Er & _)|[All _]]; rewrite Forall_forall in F.
      - rewrite Er in Fq. apply In_nth_error in Ir. destruct Ir as [k Ek]. exists (sd_i d), k, p, r. split.
        + intros <-. rewrite Ep in Ek. injection Ek as <-. unfold npeq in Nr. rewrite !feq_refl_fin in Nr by apply Up. discriminate.
        + repeat split; try assumption. rewrite dist_sym; [lra|exact Up|]. apply F. eapply nth_error_In; exact Ek.
      - exists (sd_i d), j, p, q. repeat split; try assumption; [congruence|]. rewrite dist_sym by assumption. rewrite (dist_same q p Uq Up (All q (nth_error_In _ _ Eq))). apply (dist_fin q p1 Uq U1). }
    intros i j a b Hij Ha Hb. destruct (Nat.eq_dec i (sd_i d)) as [->|Ni].
    + rewrite N1 in Ha. injection Ha as <-. rewrite Nj in Hb by congruence. destruct (K j b ltac:(congruence) Hb) as (i' & j' & p' & q' & H1 & H2 & H3 & H4).
      exists i', j', p', q'. repeat split; try assumption. rewrite (dist_sym p1 b) by (try assumption; apply F; eapply nth_error_In; exact Hb). exact H4.
    + rewrite Nj in Ha by exact Ni. destruct (Nat.eq_dec j (sd_i d)) as [->|Nj'].
      * rewrite N1 in Hb. injection Hb as <-. exact (K i a Ni Ha).
      * rewrite Nj in Hb by exact Nj'. exists i, j, a, b. repeat split; try assumption. lra.
Qed.

Lemma spaced_refl l : at_least_as_spaced l l.
Proof. intros i j a b Hij Ha Hb. exists i, j, a, b. repeat split; try assumption. lra. Qed.
Lemma spaced_trans a b c : at_least_as_spaced a b -> at_least_as_spaced b c -> at_least_as_spaced a c.
Proof.
  intros H1 H2 i j p q Hij Hp Hq. destruct (H2 i j p q Hij Hp Hq) as (i2 & j2 & p2 & q2 & N2 & A2 & B2 & L2).
  destruct (H1 i2 j2 p2 q2 N2 A2 B2) as (i1 & j1 & p1 & q1 & N1 & A1 & B1 & L1). exists i1, j1, p1, q1. repeat split; try assumption. lra.
Qed.

Definition distinct (l : list npoint) : Prop := forall i j p q, i <> j -> nth_error l i = Some p -> nth_error l j = Some q -> npeq q p = false.
Lemma spacing_run dec n init d : (1 <= n)%Z -> in_unit dec -> (forall i, draw01 (fst (init i)) /\ draw01 (snd (init i))) -> (forall i, sdraw_ok (Z.to_nat n) (d i)) ->
  let run k := spaced_generate dec n init (map d (seq 0 k)) in
  forall k, (forall i l, (0 < i <= k)%nat -> run i = Some l -> distinct l) -> exists l, run k = Some l /\ at_least_as_spaced (random_points n init) l.
Proof.
  intros Hn Hdec Hi Hd run k. induction k as [|k IH]; intros Hl.
  - exists (random_points n init). split; [reflexivity|apply spaced_refl].
  - destruct IH as (l & El & Sl); [intros i m Hm; apply Hl; lia|]. unfold run in *.
    assert (Fk : Forall (sdraw_ok (Z.to_nat n)) (map d (seq 0 k))) by (apply Forall_map, Forall_forall; intros; apply Hd).
    destruct (spaced_generate_ok dec n init _ Hn Hdec Hi Fk) as (l0 & El0 & Ll & Ul). rewrite El in El0. injection El0 as <-.
    assert (Es : spaced_generate dec n init (map d (seq 0 (S k))) = spaced_iter (temps dec f1 k) (d k) l).
    { rewrite seq_S, map_app. cbn [map Nat.add]. rewrite spaced_generate_app by exact Hn. rewrite El, map_length, seq_length. reflexivity. }
    destruct (Hd k) as (Lk & Dx & Dy).
    destruct (spaced_iter_ok (temps dec f1 k) (d k) l (temps_unit dec k Hdec)) as (l' & El' & _ & _); [repeat split; try apply Dx; try apply Dy; lia|exact Ul|].
    rewrite El' in Es. exists l'. split; [exact Es|]. apply (spaced_trans _ l); [exact Sl|].
    destruct (spacing_iter _ _ _ _ (temps_unit dec k Hdec) Dx Dy Ul El') as [(j & p & q & Hj & Ep & Eq & Q)|H]; [|exact H].
    specialize (Hl (S k) l' ltac:(lia) Es (sd_i (d k)) j p q ltac:(congruence) Ep Eq). congruence.
Qed.
