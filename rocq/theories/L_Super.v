(** The enclosing triangle. *)
From Coq Require Import ZArith Reals List Bool Lia Lra.
From Flocq Require Import Core IEEE754.BinarySingleNaN.
From Verif Require Import GoNum FloatLemmas M_Norm M_Slice M_Geom M_Image M_Raster M_Delaunay S_Delaunay L_PMap L_GMap.
Import ListNotations.
Open Scope Z_scope.

Lemma ceil_half w : 0 <= w <= 2 ^ 50 -> go_int (fceil (fdiv (f64_of_Z w) (f64_of_Z 2))) = (w + 1) / 2.
Proof.
  intros H. change (2 ^ 50) with 1125899906842624 in H.
  assert (E2 : R64 (f64_of_Z 2) = 2%R) by (apply (of_Z_val 2); lia).
  assert (Ew : R64 (f64_of_Z w) = IZR w) by (apply of_Z_val; lia).
  assert (X : R64 (fdiv (f64_of_Z w) (f64_of_Z 2)) = (IZR w / 2)%R /\ fin (fdiv (f64_of_Z w) (f64_of_Z 2))).
  { assert (B : (0 <= IZR w <= 1125899906842624)%R) by (split; apply IZR_le; lia).
    destruct (fdiv_R (f64_of_Z w) (f64_of_Z 2)) as [F E].
    - apply of_Z_fin; lia.
    - apply of_Z_fin; lia.
    - rewrite E2. lra.
    - rewrite Ew, E2. apply Rle_trans with 1125899906842624%R.
      + rewrite Rabs_pos_eq; lra.
      + rewrite bpow_IZR by lia. apply IZR_le. vm_compute. discriminate.
    - split; [|exact F]. rewrite E, Ew, E2. replace (IZR w / 2)%R with (IZR w * bpow radix2 (-1))%R by (cbn; lra). apply rnd_dy; lia. }
  destruct X as [E F]. destruct (fceil_R _ F) as [F2 E3]. rewrite E in E3.
  assert (C : Zceil (IZR w / 2) = (w + 1) / 2).
  { apply Zceil_imp. pose proof (Z.div_mod (w + 1) 2 ltac:(lia)) as D. pose proof (Z.mod_pos_bound (w + 1) 2 ltac:(lia)).
    set (q := (w + 1) / 2) in *. split.
    - apply Rmult_lt_reg_r with 2%R; [lra|]. unfold Rdiv. rewrite Rmult_assoc, Rinv_l, Rmult_1_r by lra. rewrite <- mult_IZR. apply IZR_lt. lia.
    - apply Rmult_le_reg_r with 2%R; [lra|]. unfold Rdiv. rewrite Rmult_assoc, Rinv_l, Rmult_1_r by lra. rewrite <- mult_IZR. apply IZR_le. lia. }
  rewrite C in E3. assert (R : 0 <= (w + 1) / 2 <= w + 1).
  { split; [apply Z.div_pos; lia|]. apply Z.div_le_upper_bound; lia. }
  rewrite (go_int_small _ (w + 1)); [rewrite E3; apply Ztrunc_IZR|exact F2| |lia].
  rewrite E3. rewrite Rabs_pos_eq by (apply IZR_le; lia). apply IZR_le. lia.
Qed.

(** The vertices without wrap-around. *)
Definition sA (w h : Z) := Pt ((w + 1) / 2 - 2 * Z.max w h) ((h + 1) / 2 - Z.max w h).
Definition sB (w h : Z) := Pt ((w + 1) / 2) ((h + 1) / 2 + 2 * Z.max w h).
Definition sC (w h : Z) := Pt ((w + 1) / 2 + 2 * Z.max w h) ((h + 1) / 2 - Z.max w h).

Lemma super_vertices w h : 1 <= w <= 13106 -> 1 <= h <= 13106 ->
  d_a (new_super_triangle w h) = sA w h /\ d_b (new_super_triangle w h) = sB w h /\ d_c (new_super_triangle w h) = sC w h.
Proof.
  intros Hw Hh. unfold new_super_triangle, new_triangle. cbn [d_a d_b d_c].
  rewrite !ceil_half by lia.
  assert (A1 := Z.div_mod (w + 1) 2 ltac:(lia)). assert (A2 := Z.mod_pos_bound (w + 1) 2 ltac:(lia)).
  assert (B1 := Z.div_mod (h + 1) 2 ltac:(lia)). assert (B2 := Z.mod_pos_bound (h + 1) 2 ltac:(lia)).
  unfold sA, sB, sC.
  set (hw := (w + 1) / 2) in *. set (hh := (h + 1) / 2) in *.
  assert (M : (if h >? w then i16 h else i16 w) = Z.max w h).
  { destruct (Z.gtb_spec h w); rewrite i16_id by (unfold int16_range; lia); lia. }
  rewrite M. rewrite (i16_id hw), (i16_id hh) by (unfold int16_range; lia).
  rewrite (i16_id (2 * Z.max w h)) by (unfold int16_range; lia).
  rewrite (i16_id (hw - 2 * Z.max w h)), (i16_id (hh - Z.max w h)), (i16_id (hh + 2 * Z.max w h)), (i16_id (hw + 2 * Z.max w h)) by (unfold int16_range; lia).
  auto.
Qed.

Lemma super_contains w h p : 1 <= w <= 13106 -> 1 <= h <= 13106 -> 2 <= Z.max w h -> in_image w h p ->
  orient (sA w h) (sC w h) p > 0 /\ orient (sC w h) (sB w h) p > 0 /\ orient (sB w h) (sA w h) p > 0.
Proof.
  intros Hw Hh HM (Hx & Hy). unfold orient, sA, sB, sC. cbn [px py].
  assert (A1 := Z.div_mod (w + 1) 2 ltac:(lia)). assert (A2 := Z.mod_pos_bound (w + 1) 2 ltac:(lia)).
  assert (B1 := Z.div_mod (h + 1) 2 ltac:(lia)). assert (B2 := Z.mod_pos_bound (h + 1) 2 ltac:(lia)).
  set (hw := (w + 1) / 2) in *. set (hh := (h + 1) / 2) in *. set (m := Z.max w h) in *.
  assert (m >= w /\ m >= h) by lia. repeat split.
  - assert (0 < 4 * m * (py p - (hh - m))) by (apply Z.mul_pos_pos; lia). lia.
  - assert (E : (hw - (hw + 2 * m)) * (py p - (hh - m)) - (hh + 2 * m - (hh - m)) * (px p - (hw + 2 * m)) = m * (4 * m - 2 * (py p - hh) - 3 * (px p - hw))) by ring.
    rewrite E. assert (0 < m * (4 * m - 2 * (py p - hh) - 3 * (px p - hw))) by (apply Z.mul_pos_pos; lia). lia.
  - assert (E : (hw - 2 * m - hw) * (py p - (hh + 2 * m)) - (hh - m - (hh + 2 * m)) * (px p - hw) = m * (4 * m - 2 * (py p - hh) + 3 * (px p - hw))) by ring.
    rewrite E. assert (0 < m * (4 * m - 2 * (py p - hh) + 3 * (px p - hw))) by (apply Z.mul_pos_pos; lia). lia.
Qed.

Lemma orient_rot a b c : orient a b c = orient b c a.
Proof. unfold orient. ring. Qed.
Lemma orient_swap a b c : orient b a c = - orient a b c.
Proof. unfold orient. ring. Qed.

Lemma super_inside w h p : 1 <= w <= 13106 -> 1 <= h <= 13106 -> 2 <= Z.max w h -> in_image w h p ->
  let s := new_super_triangle w h in strictly_inside (d_a s) (d_b s) (d_c s) p.
Proof.
  intros Hw Hh HM Hp s. destruct (super_vertices w h Hw Hh) as (A & B & C). unfold s. rewrite A, B, C.
  destruct (super_contains w h p Hw Hh HM Hp) as (X & Y & Z).
  right. rewrite (orient_swap (sB w h) (sA w h)), (orient_swap (sC w h) (sB w h)), (orient_swap (sA w h) (sC w h)). lia.
Qed.

Lemma super_not_freed w h : 1 <= w <= 13106 -> 1 <= h <= 13106 -> 2 <= Z.max w h -> is_freed (new_super_triangle w h) = false.
Proof.
  intros Hw Hh HM. unfold is_freed. destruct (super_vertices w h Hw Hh) as (A & _ & _). rewrite A. cbn [px sA].
  apply Z.eqb_neq. assert (A1 := Z.div_mod (w + 1) 2 ltac:(lia)). assert (A2 := Z.mod_pos_bound (w + 1) 2 ltac:(lia)).
  lia.
Qed.
