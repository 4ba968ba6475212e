(** Properties C01, C03-C06: normalised points, mutation, generators. *)
From Coq Require Import ZArith Reals List Bool.
From Flocq Require Import IEEE754.BinarySingleNaN.
From Verif Require Import GoNum M_Norm S_Norm L_Norm.
Import ListNotations.
Open Scope R_scope.

(** C01: Constrain, for every pair of coordinates. *)
Theorem C01_constrain : forall p : npoint, let q := constrain p in
  (* not NaN: ends in [0,1] *)
  (is_nan (nx p) = false -> in_unit (nx q)) /\ (is_nan (ny p) = false -> in_unit (ny q)) /\
  (* already inside: the very same float *)
  (in_unit (nx p) -> nx q = nx p) /\ (in_unit (ny p) -> ny q = ny p) /\
  (* above 1 becomes 1, below 0 becomes +0 *)
  (above_one (nx p) -> in_unit (nx q) /\ B2R (nx q) = 1) /\ (above_one (ny p) -> in_unit (ny q) /\ B2R (ny q) = 1) /\
  (below_zero (nx p) -> nx q = B754_zero false) /\ (below_zero (ny p) -> ny q = B754_zero false) /\
  (* NaN escapes *)
  (is_nan (nx p) = true -> nx q = nx p) /\ (is_nan (ny p) = true -> ny q = ny p).
Proof.
  exact (fun p => match constrain1_spec (nx p), constrain1_spec (ny p) with
    | conj a1 (conj a2 (conj a3 (conj a4 a5))), conj b1 (conj b2 (conj b3 (conj b4 b5))) =>
      conj a1 (conj b1 (conj a2 (conj b2 (conj a3 (conj b3 (conj a4 (conj b4 (conj a5 b5))))))))
    end).
Qed.
Print Assumptions C01_constrain.
Example C01_inf : constrain (NP (B754_infinity false) (f64_of_Z (-3))) = NP f1 f0. Proof. reflexivity. Qed.

(** C03: the mutation log, both methods, every outcome of the random source. *)
Theorem C03_gaussian_log : forall rate amount d pts,
  let r := gaussian_mutate rate amount d pts in
  exact_log pts (fst r) (snd r) /\
  forall i, In i (map m_idx (snd r)) <-> (i < length pts)%nat /\ f32lt (gd_pick (d i)) rate = true.
Proof. exact gaussian_exact. Qed.
Print Assumptions C03_gaussian_log.

Theorem C03_random_log : forall rate amount d pts,
  let r := random_mutate rate amount d pts in
  exact_log pts (fst r) (snd r) /\
  forall i, In i (map m_idx (snd r)) <-> (i < length pts)%nat /\ flt (rd_pick (d i)) rate = true.
Proof. exact random_exact. Qed.
Print Assumptions C03_random_log.
Example C03_two_of_three :
  map m_idx (snd (random_mutate fhalf f1 (fun i => RD (if Nat.eqb i 1 then f1 else f0) fhalf f0)
                                [NP f0 f0; NP f1 f1; NP fhalf fhalf])) = [0; 2]%nat.
Proof. vm_compute. reflexivity. Qed.

(** C04: mutated points stay in the unit square, for finite amounts and finite draws. *)
Theorem C04_gaussian_unit : forall rate amount d pts,
  is_finite amount = true -> (forall i, is_finite (gd_x (d i)) = true /\ is_finite (gd_y (d i)) = true) ->
  Forall pt_in_unit pts ->
  length (fst (gaussian_mutate rate amount d pts)) = length pts /\
  Forall pt_in_unit (fst (gaussian_mutate rate amount d pts)).
Proof. exact (fun rate amount d pts Ha Hd H =>
  conj (el_length _ _ _ (proj1 (gaussian_exact rate amount d pts))) (gaussian_unit rate amount d pts Ha Hd H)). Qed.
Print Assumptions C04_gaussian_unit.

Theorem C04_random_unit : forall rate amount d pts,
  is_finite amount = true -> (forall i, draw01 (rd_x (d i)) /\ draw01 (rd_y (d i))) ->
  Forall pt_in_unit pts ->
  length (fst (random_mutate rate amount d pts)) = length pts /\
  Forall pt_in_unit (fst (random_mutate rate amount d pts)).
Proof. exact (fun rate amount d pts Ha Hd H =>
  conj (el_length _ _ _ (proj1 (random_exact rate amount d pts))) (random_unit rate amount d pts Ha Hd H)). Qed.
Print Assumptions C04_random_unit.
Example C04_overflow : (* a huge amount overflows to infinity and is clamped *)
  match gaussian_mutate (f32_dy 1 0) (f64_dy 1 1023) (fun _ => GD (f32_dy 0 0) (f64_of_Z 4) (f64_of_Z (-4))) [NP fhalf fhalf] with
  | ([p], [m]) => npeq p (NP f1 f0) && npeq (m_old m) (NP fhalf fhalf) && npeq (m_new m) p && Nat.eqb (m_idx m) 0
  | _ => false end = true.
Proof. vm_compute. reflexivity. Qed.

(** C05: generators. *)
Theorem C05_random_generator : forall n d, (0 <= n)%Z ->
  (forall i, draw01 (fst (d i)) /\ draw01 (snd (d i))) ->
  Z.of_nat (length (random_generate n d)) = n /\ Forall pt_in_unit (random_generate n d).
Proof. exact random_points_ok. Qed.
Print Assumptions C05_random_generator.

Theorem C05_spaced_generator : forall dec n init ds, (1 <= n)%Z -> in_unit dec ->
  (forall i, draw01 (fst (init i)) /\ draw01 (snd (init i))) ->
  Forall (fun d => (sd_i d < Z.to_nat n)%nat /\ draw01 (sd_x d) /\ draw01 (sd_y d)) ds ->
  exists pts, spaced_generate dec n init ds = Some pts /\ Z.of_nat (length pts) = n /\ Forall pt_in_unit pts.
Proof. exact spaced_generate_ok. Qed.
Print Assumptions C05_spaced_generator.
Example C05_run :
  match spaced_generate fhalf 2 (fun i => (f0, f0)) [SD 1 fhalf fhalf; SD 0 (f64_dy 3 (-2)) fhalf] with
  | Some pts => length pts | None => 0%nat end = 2%nat.
Proof. vm_compute. reflexivity. Qed.

(** C06: an iteration of the spaced generator moves the chosen point to the
    candidate exactly when that increases the distance to the nearest (different)
    point; then every (different) point is further from the candidate than the
    nearest was from the old position. *)
Theorem C06_spaced_move : forall temp d pts p curr new,
  in_unit temp -> draw01 (sd_x d) -> draw01 (sd_y d) -> Forall pt_in_unit pts ->
  nth_error pts (sd_i d) = Some p ->
  let cand := constrain (NP (fadd (nx p) (fmul (fsub (sd_x d) fhalf) temp))
                            (fadd (ny p) (fmul (fsub (sd_y d) fhalf) temp))) in
  nearest_dist p pts curr -> nearest_dist cand pts new ->
  exists pts', spaced_iter temp d pts = Some pts' /\
    (B2R new <= B2R curr -> pts' = pts) /\
    (B2R curr < B2R new ->
       length pts' = length pts /\ nth_error pts' (sd_i d) = Some cand /\
       (forall j, j <> sd_i d -> nth_error pts' j = nth_error pts j) /\
       (forall q, In q pts -> npeq q cand = false -> B2R curr < B2R (dist q cand))).
Proof. exact spaced_iter_decides. Qed.
Print Assumptions C06_spaced_move.
(** Both nearest distances always exist. *)
Theorem C06_nearest_exists : forall q g, pt_in_unit q -> Forall pt_in_unit g -> exists d, nearest_dist q g d.
Proof. exact (fun q g Hq Hg => ex_intro _ _ (closest_to_spec q g Hq Hg)). Qed.
Print Assumptions C06_nearest_exists.
Example C06_accepted : (* (1/2,1/2) next to (1/2,1/2)+: moved away from (3/4,1/2) *)
  match spaced_iter f1 (SD 0 (f64_dy 1 (-3)) fhalf) [NP fhalf fhalf; NP (f64_dy 3 (-2)) fhalf] with
  | Some [a; b] => npeq a (NP (f64_dy 1 (-3)) fhalf) && npeq b (NP (f64_dy 3 (-2)) fhalf)
  | _ => false end = true.
Proof. vm_compute. reflexivity. Qed.
Example C06_rejected :
  match spaced_iter f1 (SD 0 (f64_dy 5 (-3)) fhalf) [NP fhalf fhalf; NP (f64_dy 3 (-2)) fhalf] with
  | Some [a; b] => npeq a (NP fhalf fhalf) && npeq b (NP (f64_dy 3 (-2)) fhalf)
  | _ => false end = true.
Proof. vm_compute. reflexivity. Qed.
