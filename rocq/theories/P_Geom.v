(** Properties C07, C08, C09, C55. *)
From Coq Require Import ZArith Reals List Bool Lia.
From Flocq Require Import Core IEEE754.BinarySingleNaN.
From Verif Require Import GoNum FloatLemmas M_Norm M_Geom S_Geom L_Geom.
Import ListNotations.
Open Scope Z_scope.

(** C07: the fan of a polygon. *)
Theorem C07_fan : forall p : list point,
  length (polygon_triangulate p) = (length p - 2)%nat /\
  (forall i t, nth_error (polygon_triangulate p) i = Some t ->
     nth_error p 0 = Some (tc t) /\ nth_error p (i + 1) = Some (tb t) /\ nth_error p (i + 2) = Some (ta t)) /\
  sumZ (map (fun t => area2 (tc t) (tb t) (ta t)) (polygon_triangulate p)) = shoelace2 p.
Proof. exact (fun p => conj (fan_length p) (conj (fan_nth p) (fan_area p))). Qed.
Print Assumptions C07_fan.
Example C07_square : let sq := [Pt 0 0; Pt 4 0; Pt 4 4; Pt 0 4] in
  length (polygon_triangulate sq) = 2%nat /\ shoelace2 sq = 32.
Proof. split; reflexivity. Qed.

(** C08: normalise and round back. *)
Theorem C08_round_trip : forall w h p, 1 <= w <= 32767 -> 1 <= h <= 32767 ->
  0 <= px p <= w -> 0 <= py p <= h ->
  let n := to_norm w h p in
  create_point (nx n) (ny n) w h = p /\ render_point n w h = p /\ polygonate_point n w h = p.
Proof. exact round_trip. Qed.
Print Assumptions C08_round_trip.
Example C08_case : (let n := to_norm 49 103 (Pt 48 102) in create_point (nx n) (ny n) 49 103) = Pt 48 102.
Proof. vm_compute. reflexivity. Qed.

(** C09: fastRound is math.Round on [0, 2^51], except at one float. *)
Theorem C09_fast_round : forall x : f64, is_finite x = true -> (0 <= B2R x <= bpow radix2 51)%R ->
  x <> f64_dy (2 ^ 53 - 1) (-54) -> fast_round x = go_int (fround x).
Proof. exact fast_round_is_round. Qed.
Print Assumptions C09_fast_round.
(** ... where they differ. *)
Theorem C09_exception : let x := f64_dy (2 ^ 53 - 1) (-54) in fast_round x = 1 /\ go_int (fround x) = 0.
Proof. exact (conj eq_refl eq_refl). Qed.
Print Assumptions C09_exception.
Example C09_case : fast_round (f64_dy 5 (-1)) = 3 /\ go_int (fround (f64_dy 5 (-1))) = 3.
Proof. split; vm_compute; reflexivity. Qed.

(** C55: Area of an integer polygon: half the absolute shoelace sum, rounded half
    up, as long as the float sums stay exact. *)
Theorem C55_area : forall p l,
  Forall (fun q => Z.abs (px q) <= 2 ^ 52 /\ Z.abs (py q) <= 2 ^ 52) (p :: l) ->
  sumZ (map Z.abs (terms (last (p :: l) p) (p :: l))) <= 2 ^ 51 ->
  area (map fpt (p :: l)) = (Z.abs (shoelace2 (p :: l)) + 1) / 2.
Proof. exact area_exact. Qed.
Print Assumptions C55_area.
Theorem C55_invariance : forall l a dx dy,
  shoelace2 (rev l) = - shoelace2 l /\ shoelace2 (l ++ [a]) = shoelace2 (a :: l) /\
  shoelace2 (map (fun q => Pt (px q + dx) (py q + dy)) l) = shoelace2 l.
Proof. exact (fun l a dx dy => conj (shoelace2_rev l) (conj (shoelace2_rotate a l) (shoelace2_translate dx dy l))). Qed.
Print Assumptions C55_invariance.
Example C55_case : area (map fpt [Pt 0 0; Pt 3 0; Pt 0 3]) = 5. (* 4.5 rounds to 5 *)
Proof. vm_compute. reflexivity. Qed.
