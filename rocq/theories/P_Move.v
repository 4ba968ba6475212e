(** C78: mutations and generator iterations are as large and as frequent as configured. *)
From Coq Require Import ZArith Reals List Bool Lia Lra Rpower.
From Flocq Require Import Core IEEE754.BinarySingleNaN.
From Verif Require Import GoNum FloatLemmas L_F32 M_Norm M_Spaced S_Norm L_Norm S_Move L_Move.
Import ListNotations.
Open Scope R_scope.

(** ---------- sizes of mutations ---------- *)
(** Every mutated coordinate is the old one moved by draw * amount / 2 and put back into [0,1],
    up to 2^-50, for all finite amounts and draws (overflow included). *)
Theorem C78_gaussian : forall rate amount d pts m,
  is_finite amount = true -> (forall i, is_finite (gd_x (d i)) = true /\ is_finite (gd_y (d i)) = true) -> Forall pt_in_unit pts ->
  In m (snd (gaussian_mutate rate amount d pts)) ->
  moved (bpow radix2 (-50)) (nx (m_old m)) (nx (m_new m)) (B2R (gd_x (d (m_idx m))) * B2R amount / 2) /\
  moved (bpow radix2 (-50)) (ny (m_old m)) (ny (m_new m)) (B2R (gd_y (d (m_idx m))) * B2R amount / 2).
Proof. exact gaussian_moved. Qed.
Print Assumptions C78_gaussian.
Example C78_gaussian_case : (* 1/4 + 2 * (1/2) / 2 = 3/4, and 1/2 - 3 * (1/2) / 2 is put back to 0 *)
  match gaussian_mutate (f32_dy 1 0) fhalf (fun _ => GD (f32_dy 0 0) (f64_of_Z 2) (f64_of_Z (-3))) [NP (f64_dy 1 (-2)) fhalf] with
  | ([p], [m]) => npeq p (NP (f64_dy 3 (-2)) f0) | _ => false end = true.
Proof. vm_compute. reflexivity. Qed.

(** The random method: (draw - 1/2) * amount, so no coordinate moves by more than amount / 2. *)
Theorem C78_random : forall rate amount d pts m,
  is_finite amount = true -> (forall i, draw01 (rd_x (d i)) /\ draw01 (rd_y (d i))) -> Forall pt_in_unit pts ->
  In m (snd (random_mutate rate amount d pts)) ->
  moved (bpow radix2 (-50)) (nx (m_old m)) (nx (m_new m)) ((B2R (rd_x (d (m_idx m))) - / 2) * B2R amount) /\
  moved (bpow radix2 (-50)) (ny (m_old m)) (ny (m_new m)) ((B2R (rd_y (d (m_idx m))) - / 2) * B2R amount) /\
  Rabs (B2R (nx (m_new m)) - B2R (nx (m_old m))) <= Rabs (B2R amount) / 2 + bpow radix2 (-50) /\
  Rabs (B2R (ny (m_new m)) - B2R (ny (m_old m))) <= Rabs (B2R amount) / 2 + bpow radix2 (-50).
Proof.
  intros rate amount d pts m Ha Hd Hp Hin. destruct (random_moved rate amount d pts m Ha Hd Hp Hin) as [Mx My]. split; [exact Mx|]. split; [exact My|].
  assert (K : forall u, draw01 u -> Rabs ((B2R u - / 2) * B2R amount) <= Rabs (B2R amount) / 2).
  { intros u [_ Hu]. rewrite Rabs_mult. unfold Rdiv. rewrite Rmult_comm. apply Rmult_le_compat_l; [apply Rabs_pos|]. apply Rabs_le. lra. }
  assert (O : pt_in_unit (m_old m)). { unfold random_mutate in Hin. rewrite random_mut in Hin. apply mut_from_move in Hin. rewrite Forall_forall in Hp. apply Hp, Hin. }
  destruct O as [[_ Ox] [_ Oy]]. destruct (Hd (m_idx m)) as [Dx Dy].
  split; (eapply Rle_trans; [eapply moved_dist; eassumption|]; apply Rplus_le_compat_r, K; assumption).
Qed.
Print Assumptions C78_random.
Example C78_random_case : (* 1/2 + (1/4 - 1/2) * 2 = 0, 1/2 + (3/4 - 1/2) * 2 = 1 *)
  match random_mutate f1 (f64_of_Z 2) (fun _ => RD f0 (f64_dy 1 (-2)) (f64_dy 3 (-2))) [NP fhalf fhalf] with
  | ([p], [m]) => npeq p (NP f0 f1) | _ => false end = true.
Proof. vm_compute. reflexivity. Qed.

(** ---------- how often points are mutated ---------- *)
Definition draws32 (d : nat -> gdraw) : Prop := forall i, is_finite (gd_pick (d i)) = true /\ 0 <= B2R (gd_pick (d i)) < 1.

(** NewGaussianMethod(rate): from 1 on all points are mutated, up to 0 none; between, a point is
    mutated when its draw is below a number within 2^-25 of the rate. *)
Theorem C78_rate : forall (rate : f64) amount d pts, is_finite rate = true -> Rabs (B2R rate) <= bpow radix2 127 -> draws32 d ->
  let idx := map m_idx (snd (gaussian_mutate (new_gaussian_rate rate) amount d pts)) in
  (1 <= B2R rate -> forall i, In i idx <-> (i < length pts)%nat) /\
  (B2R rate <= 0 -> idx = []) /\
  (0 <= B2R rate <= 1 -> exists r, Rabs (r - B2R rate) <= bpow radix2 (-25) /\ forall i, In i idx <-> (i < length pts)%nat /\ B2R (gd_pick (d i)) < r).
Proof.
  intros rate amount d pts Hf Hb Hd. cbv zeta. destruct (gaussian_exact (new_gaussian_rate rate) amount d pts) as [_ Hin].
  destruct (f32_of_f64_R rate Hf Hb) as [Fr Er]. fold (new_gaussian_rate rate) in Fr, Er.
  assert (L : forall i, f32lt (gd_pick (d i)) (new_gaussian_rate rate) = Rlt_bool (B2R (gd_pick (d i))) (rnd32 (B2R rate))).
  { intros i. rewrite <- Er. apply f32lt_R; [apply Hd|exact Fr]. }
  split; [|split].
  - intros H i. rewrite Hin, L. split; [tauto|]. intros Hi. split; [exact Hi|]. apply Rlt_bool_true.
    apply Rlt_le_trans with 1; [apply Hd|]. rewrite <- (rnd32_Z 1) by lia. apply rnd32_le, H.
  - intros H. destruct (map m_idx _) as [|i l]; [reflexivity|]. exfalso. destruct (proj1 (Hin i) (or_introl eq_refl)) as [_ X].
    rewrite L, Rlt_bool_false in X; [discriminate|]. apply Rle_trans with 0; [|apply Hd]. rewrite <- rnd32_0. apply rnd32_le, H.
  - intros H. exists (rnd32 (B2R rate)). split; [apply (rnd32_err _ 0); [lia|]; change (bpow radix2 0) with 1; rewrite Rabs_pos_eq; lra|].
    intros i. rewrite Hin, L. split; intros [A B]; (split; [exact A|]); [destruct (Rlt_bool_spec (B2R (gd_pick (d i))) (rnd32 (B2R rate))); [assumption|discriminate]|now apply Rlt_bool_true].
Qed.
Print Assumptions C78_rate.
Example C78_rate_case : (* rate 1/2: of the draws 0, 1/2 and 1/4 the second does not mutate *)
  map m_idx (snd (gaussian_mutate (new_gaussian_rate fhalf) f1 (fun i => GD (nth i [f32_dy 0 0; f32_dy 1 (-1); f32_dy 1 (-2)] (f32_dy 0 0)) f0 f0) [NP f0 f0; NP f0 f0; NP f0 f0])) = [0; 2]%nat.
Proof. vm_compute. reflexivity. Qed.

(** DefaultGaussianMethod(n): a point is mutated when its draw is below a number that is 2/n up to
    a relative error of 2^-22, and is moved by 0.15 times its normal draws. *)
Theorem C78_default : forall n d pts, (1 <= n <= 2 ^ 62)%Z -> draws32 d -> (forall i, is_finite (gd_x (d i)) = true /\ is_finite (gd_y (d i)) = true) -> Forall pt_in_unit pts ->
  let log := snd (gaussian_mutate (default_gaussian_rate n) default_gaussian_amount d pts) in
  (exists r, Rabs (r * (IZR n / 2) - 1) <= bpow radix2 (-22) /\ forall i, In i (map m_idx log) <-> (i < length pts)%nat /\ B2R (gd_pick (d i)) < r) /\
  forall m, In m log -> let x := B2R (gd_x (d (m_idx m))) in let y := B2R (gd_y (d (m_idx m))) in
    moved (bpow radix2 (-50) + Rabs x * bpow radix2 (-55)) (nx (m_old m)) (nx (m_new m)) (3 / 20 * x) /\
    moved (bpow radix2 (-50) + Rabs y * bpow radix2 (-55)) (ny (m_old m)) (ny (m_new m)) (3 / 20 * y).
Proof.
  intros n d pts Hn Hd Hx Hp. cbv zeta. destruct (gaussian_exact (default_gaussian_rate n) default_gaussian_amount d pts) as [_ Hin].
  destruct (default_rate n Hn) as [Fr Er]. destruct default_amount as [Fa Ea]. split.
  - exists (B2R (default_gaussian_rate n)). split; [exact Er|]. intros i. rewrite Hin, f32lt_R by (apply Hd || exact Fr).
    split; intros [A B]; (split; [exact A|]); [destruct (Rlt_bool_spec (B2R (gd_pick (d i))) (B2R (default_gaussian_rate n))); [assumption|discriminate]|now apply Rlt_bool_true].
  - intros m Hm. destruct (gaussian_moved _ _ d pts m Fa Hx Hp Hm) as [Mx My].
    assert (K : forall x, Rabs (x * B2R default_gaussian_amount / 2 - 3 / 20 * x) <= Rabs x * bpow radix2 (-55)).
    { intros x. replace (x * B2R default_gaussian_amount / 2 - 3 / 20 * x) with (x * ((B2R default_gaussian_amount - 3 / 10) / 2)) by field. rewrite Rabs_mult.
      apply Rmult_le_compat_l; [apply Rabs_pos|]. unfold Rdiv at 1. rewrite Rabs_mult, (Rabs_pos_eq (/ 2)) by lra. pose proof (Rabs_pos (B2R default_gaussian_amount - 3 / 10)). lra. }
    split; (eapply moved_change; [eassumption|apply K]).
Qed.
Print Assumptions C78_default.
Example C78_default_case : (* four points: 2/4 *) B2SF (default_gaussian_rate 4) = B2SF (f32_dy 1 (-1)).
Proof. vm_compute. reflexivity. Qed.

(** ---------- the spaced generator ---------- *)
(** Iteration k changes at most the point chosen; if it moves that point, each coordinate is moved
    by (draw - 1/2) * decrement^k and put back into [0,1], up to rounding. *)
Theorem C78_spaced : forall dec n init ds d, (1 <= n)%Z -> in_unit dec ->
  (forall i, draw01 (fst (init i)) /\ draw01 (snd (init i))) ->
  Forall (fun d => (sd_i d < Z.to_nat n)%nat /\ draw01 (sd_x d) /\ draw01 (sd_y d)) (ds ++ [d]) ->
  let e := bpow radix2 (-50) + INR (length ds) * bpow radix2 (-55) in
  exists before after p p', spaced_generate dec n init ds = Some before /\ spaced_generate dec n init (ds ++ [d]) = Some after /\
    (forall j, j <> sd_i d -> nth_error after j = nth_error before j) /\
    nth_error before (sd_i d) = Some p /\ nth_error after (sd_i d) = Some p' /\ pt_in_unit p /\
    (p' = p \/ (moved e (nx p) (nx p') ((B2R (sd_x d) - / 2) * B2R dec ^ length ds) /\ moved e (ny p) (ny p') ((B2R (sd_y d) - / 2) * B2R dec ^ length ds))).
Proof. exact spaced_moved. Qed.
Print Assumptions C78_spaced.

(** NewSpacedGenerator(N).Generate(n) cools from 1 to 0.02: iteration k of N moves a coordinate by
    (draw - 1/2) * 0.02^(k/N), so by at most half of that. *)
Theorem C78_cooling : forall pow N n init d k, pow_ok pow -> (1 <= N <= 2 ^ 53)%Z -> (1 <= n)%Z -> (k < Z.to_nat N)%nat ->
  (forall i, draw01 (fst (init i)) /\ draw01 (snd (init i))) ->
  (forall i, (sd_i (d i) < Z.to_nat n)%nat /\ draw01 (sd_x (d i)) /\ draw01 (sd_y (d i))) ->
  let run k := spaced_generate (spaced_decrement pow N) n init (map d (seq 0 k)) in
  let e := (INR k + 1) * bpow radix2 (-50) in
  let t := Rpower (/ 50) (INR k / IZR N) in
  run (Z.to_nat N) = spaced_new pow N n init d /\
  exists before after p p', run k = Some before /\ run (S k) = Some after /\
    (forall j, j <> sd_i (d k) -> nth_error after j = nth_error before j) /\
    nth_error before (sd_i (d k)) = Some p /\ nth_error after (sd_i (d k)) = Some p' /\
    (p' = p \/ (moved e (nx p) (nx p') ((B2R (sd_x (d k)) - / 2) * t) /\ moved e (ny p) (ny p') ((B2R (sd_y (d k)) - / 2) * t))) /\
    Rabs (B2R (nx p') - B2R (nx p)) <= t / 2 + e /\ Rabs (B2R (ny p') - B2R (ny p)) <= t / 2 + e.
Proof.
  intros pow N n init d k Hp HN Hn Hk Hi Hd. cbv zeta. split; [reflexivity|].
  destruct (cooling pow N n init d k Hp HN Hn Hk Hi Hd) as (b & a & p & p' & H1 & H2 & H3 & H4 & H5 & H6 & H7). cbv zeta in *.
  exists b, a, p, p'. repeat (split; [assumption|]).
  set (t := Rpower (/ 50) (INR k / IZR N)) in *. assert (Ht : 0 < t) by apply exp_pos.
  assert (He : 0 <= (INR k + 1) * bpow radix2 (-50)) by (apply Rmult_le_pos; [pose proof (pos_INR k); lra|apply bpow_ge_0]).
  change eps with (bpow radix2 (-50)) in H7. destruct H6 as [[_ Ux] [_ Uy]]. destruct (Hd k) as (_ & Dx & Dy).
  assert (K : forall u, draw01 u -> Rabs ((B2R u - / 2) * t) <= t / 2).
  { intros u [_ Hu]. rewrite Rabs_mult, (Rabs_pos_eq t) by lra. rewrite Rmult_comm. apply Rmult_le_compat_l; [lra|]. apply Rabs_le. lra. }
  destruct H7 as [->|[Mx My]].
  - rewrite !Rminus_diag_eq, Rabs_R0 by reflexivity. split; lra.
  - split; (eapply Rle_trans; [eapply moved_dist; eassumption|]; apply Rplus_le_compat_r, K; assumption).
Qed.
Print Assumptions C78_cooling.

(** There is such a math.Pow. *)
Theorem C78_pow : exists pow, pow_ok pow.
Proof.
  exists (fun x y => f64_dy (ZnearestE (Rpower (B2R x) (B2R y) * bpow radix2 52)) (-52)). intros x y Fx Fy Hx Hy.
  assert (P : 0 <= Rpower (B2R x) (B2R y) <= 1).
  { split; [left; apply exp_pos|]. unfold Rpower. rewrite <- exp_0. assert (L : ln (B2R x) <= 0).
    { rewrite <- ln_1. destruct (proj2 Hx) as [H|H]; [left; apply ln_increasing; lra|right; now rewrite H]. }
    assert (Q : B2R y * ln (B2R x) <= 0) by (replace 0 with (B2R y * 0) by ring; apply Rmult_le_compat_l; lra).
    destruct Q as [Q|Q]; [left; now apply exp_increasing|right; now rewrite Q]. }
  set (q := Rpower (B2R x) (B2R y)) in *. set (z := ZnearestE (q * bpow radix2 52)).
  assert (B52 : bpow radix2 52 = IZR (2 ^ 52)) by reflexivity.
  assert (Hz : (0 <= z <= 2 ^ 52)%Z).
  { unfold z. split.
    - rewrite <- (Zrnd_IZR ZnearestE 0). apply Zrnd_le; [auto with typeclass_instances|]. apply Rmult_le_pos; [lra|apply bpow_ge_0].
    - rewrite <- (Zrnd_IZR ZnearestE (2 ^ 52)). apply Zrnd_le; [auto with typeclass_instances|]. rewrite <- B52. rewrite <- (Rmult_1_l (bpow radix2 52)) at 2. apply Rmult_le_compat_r; [apply bpow_ge_0|lra]. }
  assert (U : bpow radix2 52 * bpow radix2 (-52) = 1) by (rewrite <- bpow_plus; reflexivity).
  pose proof (bpow_gt_0 radix2 (-52)) as P52.
  assert (Bz : 0 <= IZR z * bpow radix2 (-52) <= 1).
  { split; [apply Rmult_le_pos; [apply IZR_le; lia|lra]|]. rewrite <- U. apply Rmult_le_compat_r; [lra|]. rewrite B52. apply IZR_le. lia. }
  destruct (f64_dy_R z (-52)) as [F E]. { rewrite Rabs_pos_eq by lra. apply Rle_trans with (bpow radix2 0); [exact (proj2 Bz)|apply bpow_le; lia]. }
  rewrite rnd_dy in E by lia. split; [exact F|]. rewrite E. split; [exact Bz|].
  pose proof (Znearest_half (fun x => negb (Z.even x)) (q * bpow radix2 52)) as N. fold z in N.
  replace (IZR z * bpow radix2 (-52) - q) with (- ((q * bpow radix2 52 - IZR z) * bpow radix2 (-52))) by (replace ((q * bpow radix2 52 - IZR z) * bpow radix2 (-52)) with (q * (bpow radix2 52 * bpow radix2 (-52)) - IZR z * bpow radix2 (-52)) by ring; rewrite U; ring).
  rewrite Rabs_Ropp, Rabs_mult, (Rabs_pos_eq (bpow radix2 (-52))) by lra.
  apply Rle_trans with (/ 2 * bpow radix2 (-52)); [apply Rmult_le_compat_r; lra|].
  change (-51)%Z with (1 + -52)%Z. rewrite bpow_plus. change (bpow radix2 1) with 2. lra.
Qed.
Print Assumptions C78_pow.

(** Decrement 1/2, two points: the second iteration moves point 0 from (1/2,1/2) by (1/8,0),
    half of what the same draws do in the first. *)
Example C78_spaced_case :
  let at_ d := spaced_generate fhalf 2 (fun i => if Nat.eqb i 0 then (fhalf, fhalf) else (f64_dy 7 (-4), fhalf)) d in
  match at_ [SD 1 fhalf fhalf; SD 0 (f64_dy 3 (-2)) fhalf], at_ [SD 0 (f64_dy 3 (-2)) fhalf] with
  | Some [a; b], Some [c; e] => npeq a (NP (f64_dy 5 (-3)) fhalf) && npeq b (NP (f64_dy 7 (-4)) fhalf) && npeq c (NP (f64_dy 3 (-2)) fhalf)
  | _, _ => false end = true.
Proof. vm_compute. reflexivity. Qed.

(* ------------------------------------------------------------------ *)
(** * C79: the spaced generator does not bring points closer together *)

(** One iteration: unless the chosen point was moved exactly onto another one, the group is at
    least as spaced as before. *)
Theorem C79_iteration : forall temp d pts pts', in_unit temp -> draw01 (sd_x d) -> draw01 (sd_y d) -> Forall pt_in_unit pts ->
  spaced_iter temp d pts = Some pts' ->
  (exists j p q, j <> sd_i d /\ nth_error pts' (sd_i d) = Some p /\ nth_error pts' j = Some q /\ npeq q p = true) \/ at_least_as_spaced pts pts'.
Proof. exact spacing_iter. Qed.
Print Assumptions C79_iteration.

(** Generate: if no iteration puts a point onto another one, the result is at least as spaced as
    the random points it started from. *)
Theorem C79_generate : forall dec n init d, (1 <= n)%Z -> in_unit dec -> (forall i, draw01 (fst (init i)) /\ draw01 (snd (init i))) ->
  (forall i, (sd_i (d i) < Z.to_nat n)%nat /\ draw01 (sd_x (d i)) /\ draw01 (sd_y (d i))) ->
  let run k := spaced_generate dec n init (map d (seq 0 k)) in
  forall k, (forall i l a b p q, (0 < i <= k)%nat -> run i = Some l -> a <> b -> nth_error l a = Some p -> nth_error l b = Some q -> npeq q p = false) ->
  exists first l, run 0%nat = Some first /\ run k = Some l /\ at_least_as_spaced first l.
Proof.
  intros dec n init d Hn Hdec Hi Hd run k Hl. destruct (spacing_run dec n init d Hn Hdec Hi Hd k) as (l & El & Sl).
  - intros i l Hik Er a b p q. exact (Hl i l a b p q Hik Er).
  - exists (random_points n init), l. repeat split; assumption.
Qed.
Print Assumptions C79_generate.

(** Without the condition it is false: closestTo skips points equal to the candidate, so a point
    is moved exactly onto another one if everything else is far enough. *)
Definition hit_before : list npoint := [NP fhalf fhalf; NP (f64_dy 9 (-4)) fhalf; NP (f64_dy 3 (-2)) fhalf].
Definition hit_after : list npoint := [NP (f64_dy 3 (-2)) fhalf; NP (f64_dy 9 (-4)) fhalf; NP (f64_dy 3 (-2)) fhalf].
Definition hit_draw : sdraw := SD 0 (f64_dy 3 (-2)) fhalf.
Lemma hit_iter : match spaced_iter f1 hit_draw hit_before with
  | Some l => forallb (fun pq => npeq (fst pq) (snd pq)) (combine l hit_after) && Nat.eqb (length l) 3 | None => false end = true.
Proof. vm_compute. reflexivity. Qed.
Lemma hit_apart : forallb (fun ij => flt f0 (dist (nth (fst ij) hit_before (NP f0 f0)) (nth (snd ij) hit_before (NP f0 f0)))) [(0, 1); (0, 2); (1, 0); (1, 2); (2, 0); (2, 1)]%nat = true.
Proof. vm_compute. reflexivity. Qed.
Lemma hit_units : pt_in_unit (NP fhalf fhalf) /\ pt_in_unit (NP (f64_dy 9 (-4)) fhalf) /\ pt_in_unit (NP (f64_dy 3 (-2)) fhalf) /\ draw01 (f64_dy 3 (-2)) /\ draw01 fhalf.
Proof.
  assert (H : in_unit fhalf) by (split; [reflexivity|]; pose proof fhalf_R as X; cbv beta in *; rewrite X; lra).
  assert (K : forall m e, fin (f64_dy m e) /\ R64 (f64_dy m e) = IZR m * bpow radix2 e -> 0 <= IZR m * bpow radix2 e < 1 -> draw01 (f64_dy m e)).
  { intros m e [F E] B. split; [exact F|]. cbv beta in *. rewrite E. exact B. }
  assert (D : forall m e, (Z.abs m <= 2 ^ 53)%Z -> (-1074 <= e)%Z -> 0 <= IZR m * bpow radix2 e < 1 -> draw01 (f64_dy m e)).
  { intros m e Hm He B. apply K; [|exact B]. destruct (f64_dy_R m e) as [F E]; [rewrite Rabs_pos_eq by lra; apply Rle_trans with (bpow radix2 0); [change (bpow radix2 0) with 1; lra|apply bpow_le; lia]|].
    split; [exact F|]. rewrite E. apply rnd_dy; assumption. }
  assert (A : draw01 (f64_dy 9 (-4))) by (apply D; [lia|lia|change (bpow radix2 (-4)) with (/ 16); lra]).
  assert (B : draw01 (f64_dy 3 (-2))) by (apply D; [lia|lia|change (bpow radix2 (-2)) with (/ 4); lra]).
  assert (C : draw01 fhalf) by (split; [apply H|]; pose proof fhalf_R as X; cbv beta in *; rewrite X; lra).
  assert (W : forall v, draw01 v -> in_unit v) by (intros v [F G]; split; [exact F|lra]).
  repeat split; try (apply W; assumption); try apply A; try apply B; try apply C; try apply H; try (apply W in A; apply A); try (apply W in B; apply B); try (apply W in C; apply C).
Qed.
Theorem C79_collision_refuted : in_unit f1 /\ draw01 (sd_x hit_draw) /\ draw01 (sd_y hit_draw) /\ Forall pt_in_unit hit_before /\
  exists pts', spaced_iter f1 hit_draw hit_before = Some pts' /\ ~ at_least_as_spaced hit_before pts'.
Proof.
  destruct hit_units as (U0 & U1 & U2 & D1 & D2). assert (Ub : Forall pt_in_unit hit_before) by exact (Forall_cons _ U0 (Forall_cons _ U1 (Forall_cons _ U2 (Forall_nil _)))).
  split; [apply f1_in|]. split; [exact D1|]. split; [exact D2|]. split; [exact Ub|].
  pose proof hit_iter as H. destruct (spaced_iter f1 hit_draw hit_before) as [l|] eqn:E; [|discriminate]. exists l. split; [reflexivity|]. intros S.
  destruct (spaced_iter_ok f1 hit_draw hit_before f1_in) as (l0 & E0 & _ & Ul); [split; [apply Nat.lt_0_succ|split; assumption]|exact Ub|]. rewrite E in E0. injection E0 as <-. clear E.
  apply andb_true_iff in H. destruct H as [H L]. destruct l as [|a [|b [|c [|]]]]; try discriminate. clear L.
  unfold hit_after in H. cbn [combine forallb fst snd] in H. rewrite !andb_true_iff in H. destruct H as (Ha & _ & Hc & _).
  assert (Ua : pt_in_unit a) by (inversion Ul; assumption). assert (Uc : pt_in_unit c) by (inversion Ul as [|? ? ? X]; inversion X as [|? ? ? Y]; inversion Y; assumption).
  destruct (S 0%nat 2%nat a c ltac:(discriminate) eq_refl eq_refl) as (i & j & p & q & Hij & Ei & Ej & Le).
  assert (Z0 : R64 (dist a c) = 0).
  { apply dist_same; try assumption. unfold npeq in *. rewrite !andb_true_iff in *. destruct Ha as [A1 A2], Hc as [C1 C2]. unfold pt_in_unit, in_unit in *.
    assert (T : forall x y z : f64, fin x -> fin y -> fin z -> feq x y = true -> feq z y = true -> feq x z = true).
    { intros x y z Fx Fy Fz. rewrite !feq_R by assumption. intros X1 X2. destruct (Req_bool_spec (R64 x) (R64 y)) as [Q1|]; [|discriminate]. destruct (Req_bool_spec (R64 z) (R64 y)) as [Q2|]; [|discriminate].
      destruct (Req_bool_spec (R64 x) (R64 z)); [reflexivity|congruence]. }
    split; [apply (T _ (f64_dy 3 (-2)) _)|apply (T _ fhalf _)]; try assumption; try apply Ua; try apply Uc; reflexivity. }
  pose proof hit_apart as P. rewrite forallb_forall in P.
  assert (In (i, j) [(0, 1); (0, 2); (1, 0); (1, 2); (2, 0); (2, 1)]%nat).
  { assert (i < 3)%nat by (apply (nth_error_Some hit_before); congruence). assert (j < 3)%nat by (apply (nth_error_Some hit_before); congruence).
    destruct i as [|[|[|]]]; destruct j as [|[|[|]]]; try lia; cbn; tauto. }
  specialize (P (i, j) H). cbn [fst snd] in P. rewrite (nth_error_nth _ _ _ Ei), (nth_error_nth _ _ _ Ej) in P.
  rewrite Forall_forall in Ub. rewrite flt_R in P; [|reflexivity|apply dist_fin; apply Ub; eapply nth_error_In; eassumption].
  destruct (Rlt_bool_spec (R64 f0) (R64 (dist p q))) as [Q|]; [|discriminate]. rewrite f0_R in Q. cbv beta in *. lra.
Qed.
Print Assumptions C79_collision_refuted.

(** The same points, but point 0 is moved away from the others: to (1/4, 1/2). *)
Definition away_draw : sdraw := SD 0 (f64_dy 1 (-2)) fhalf.
Lemma away_iter : match spaced_iter f1 away_draw hit_before with
  | Some [a; b; c] => npeq a (NP (f64_dy 1 (-2)) fhalf) && negb (npeq b a) && negb (npeq c a) | _ => false end = true.
Proof. vm_compute. reflexivity. Qed.
Example C79_case : draw01 (sd_x away_draw) /\ Forall pt_in_unit hit_before /\ exists a b c, spaced_iter f1 away_draw hit_before = Some [a; b; c] /\ npeq a (NP (f64_dy 1 (-2)) fhalf) = true /\ at_least_as_spaced hit_before [a; b; c].
Proof.
  destruct hit_units as (U0 & U1 & U2 & _ & D2). assert (Ub : Forall pt_in_unit hit_before) by exact (Forall_cons _ U0 (Forall_cons _ U1 (Forall_cons _ U2 (Forall_nil _)))).
  assert (D : draw01 (sd_x away_draw)).
  { destruct (f64_dy_R 1 (-2)) as [F E]; [rewrite Rmult_1_l, Rabs_pos_eq by apply bpow_ge_0; apply bpow_le; lia|]. split; [exact F|]. change (0 <= R64 (f64_dy 1 (-2)) < 1). rewrite E, rnd_dy by lia. change (bpow radix2 (-2)) with (/ 4). lra. }
  split; [exact D|]. split; [exact Ub|]. pose proof away_iter as H. destruct (spaced_iter f1 away_draw hit_before) as [[|a [|b [|c [|]]]]|] eqn:E; try discriminate H. exists a, b, c. rewrite !andb_true_iff, !negb_true_iff in H. destruct H as [[Ha Hb] Hc].
  split; [reflexivity|]. split; [exact Ha|]. destruct (C79_iteration f1 away_draw hit_before _ f1_in D D2 Ub E) as [(j & p & q & N & P & Q & K)|X]; [exfalso; clear E|exact X].
  injection P as <-. destruct j as [|[|[|j]]]; cbn in Q; [exact (N eq_refl)|injection Q as <-|injection Q as <-|destruct j; discriminate]; congruence.
Qed.
