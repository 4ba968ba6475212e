(** Proofs for the rasterisers, part 3: the block rasteriser (C18, C21). *)
From Coq Require Import ZArith Reals List Bool Lia Lra Permutation Psatz.
From Flocq Require Import Core IEEE754.BinarySingleNaN.
From Verif Require Import GoNum FloatLemmas M_Norm M_Geom S_Geom M_Raster S_Raster L_Raster1 L_Raster2.
Import ListNotations.
Open Scope Z_scope.

Lemma lin_same m m' b d : okm m -> okm m' -> R64 m = R64 m' -> okb b -> Z.abs d <= 2 ^ 26 ->
  go_int (lin m b d) = go_int (lin m' b d).
Proof. intros H H' E Hb Hd. rewrite !go_int_lin by assumption. unfold linR. rewrite E. reflexivity. Qed.

Lemma up_rest_cov bs x y y2 m0 b0 m1 b1 i :
  cov bs x y (up_rest y2 m0 b0 m1 b1 i) =
  b2z ((y2 <? y) && (y <=? i) && (go_int (lin m0 b0 (y - y2)) <=? x) && (x <? go_int (lin m1 b1 (y - y2)))).
Proof.
  unfold up_rest. rewrite (cov_rows_down bs x y (fun i => go_int (lin m0 b0 (i - y2))) (fun i => go_int (lin m1 b1 (i - y2)))).
  replace (i - (i - y2)) with y2 by lia. reflexivity.
Qed.

Lemma down_rest_cov bs x y y0 y1 m0 b0 d0 m1 b1 d1 i :
  cov bs x y (down_rest y0 y1 m0 b0 d0 m1 b1 d1 i) =
  b2z ((i <=? y) && (y <? y0) && (go_int (lin m0 b0 (y - y1 + d0)) <=? x) && (x <? go_int (lin m1 b1 (y - y1 + d1)))).
Proof. unfold down_rest. apply (cov_rows bs x y (fun i => go_int (lin m0 b0 (i - y1 + d0))) (fun i => go_int (lin m1 b1 (i - y1 + d1)))). Qed.

Lemma split_rows (c1 c2 c3 c4 P Q : bool) :
  (c1 = true -> c2 = true -> c3 = true -> False) -> True -> b2z (c1 && P && Q) = b2z (c1 && P && Q).
Proof. reflexivity. Qed.

(** Up part: blocks then single rows, all rows y2 < y < y1. *)
Lemma up_part bs y1 y2 m0 b0 m1 fuel :
  1 <= bs <= 2 ^ 24 -> okm m0 -> okb b0 -> okm m1 -> (R64 m0 <= R64 m1)%R ->
  y2 < y1 <= y2 + 2 ^ 25 -> 2 ^ 56 <= Z.of_nat fuel ->
  exists l i, up_blocks fuel bs y2 m0 b0 m1 b0 (y1 - 1) = Some (l, i) /\
  forall x y, cov bs x y (l ++ up_rest y2 m0 b0 m1 b0 i) =
    b2z ((y2 <=? y) && (y <? y1) && (go_int (lin m0 b0 (y - y2)) <=? x) && (x <? go_int (lin m1 b0 (y - y2)))).
Proof.
  intros Hbs Hm0 Hb0 Hm1 Hle Hy Hf.
  destruct (up_blocks_spec bs y2 m0 b0 m1 b0 Hbs Hm0 Hb0 Hm1 eq_refl Hle fuel (y1 - 1)) as (l & i & E & Hi & C); try lia.
  exists l, i. split; [exact E|]. intros x y. rewrite cov_app, C, up_rest_cov.
  destruct (Z.eq_dec y y2) as [->|N].
  - replace (y2 - y2) with 0 by lia. rewrite !go_int_lin, !linR_0 by (auto; lia).
    set (q := Ztrunc (R64 b0)). destruct (Z.leb_spec q x), (Z.ltb_spec x q); try lia; rewrite ?andb_false_r; reflexivity.
  - unfold b2z. destruct (Z.ltb_spec i y), (Z.leb_spec y (y1 - 1)), (Z.ltb_spec y2 y), (Z.leb_spec y i), (Z.leb_spec y2 y), (Z.ltb_spec y y1);
      try lia; cbn [andb]; lia.
Qed.

Lemma down_part bs y0 y1 m0 b0 d0 m1 b1 d1 fuel :
  1 <= bs <= 2 ^ 24 -> okm m0 -> okb b0 -> okm m1 -> okb b1 ->
  0 <= d0 <= 2 ^ 25 -> 0 <= d1 <= 2 ^ 25 -> y1 <= y0 <= y1 + 2 ^ 25 -> 2 ^ 56 <= Z.of_nat fuel ->
  exists l i, down_blocks fuel bs y0 y1 m0 b0 d0 m1 b1 d1 y1 = Some (l, i) /\
  forall x y, cov bs x y (l ++ down_rest y0 y1 m0 b0 d0 m1 b1 d1 i) =
    b2z ((y1 <=? y) && (y <? y0) && (go_int (lin m0 b0 (y - y1 + d0)) <=? x) && (x <? go_int (lin m1 b1 (y - y1 + d1)))).
Proof.
  intros Hbs Hm0 Hb0 Hm1 Hb1 Hd0 Hd1 Hy Hf.
  destruct (down_blocks_spec bs y0 y1 m0 b0 d0 m1 b1 d1 Hbs Hm0 Hb0 Hm1 Hb1 Hd0 Hd1 ltac:(lia) fuel y1) as (l & i & E & Hi & C); try lia.
  exists l, i. split; [exact E|]. intros x y. rewrite cov_app, C, down_rest_cov.
  unfold b2z. destruct (Z.leb_spec y1 y), (Z.ltb_spec y i), (Z.leb_spec i y), (Z.ltb_spec y y0); try lia; cbn [andb]; lia.
Qed.

(** With no rows, the loops do nothing. *)
Lemma up_none fuel bs y2 m0 b0 m1 b1 i : i <= y2 -> (1 <= fuel)%nat -> up_blocks fuel bs y2 m0 b0 m1 b1 i = Some ([], i).
Proof. intros H Hf. destruct fuel; [lia|]. cbn [up_blocks]. rewrite Z.gtb_ltb. destruct (Z.ltb_spec y2 i); [lia|reflexivity]. Qed.
Lemma up_rest_none y2 m0 b0 m1 b1 i : i <= y2 -> up_rest y2 m0 b0 m1 b1 i = [].
Proof. intros H. unfold up_rest. rewrite zfor_nil by lia. reflexivity. Qed.
Lemma down_none fuel bs y0 y1 m0 b0 d0 m1 b1 d1 : 1 <= bs -> y0 <= y1 -> (1 <= fuel)%nat ->
  down_blocks fuel bs y0 y1 m0 b0 d0 m1 b1 d1 y1 = Some ([], y1).
Proof. intros Hb H Hf. destruct fuel; [lia|]. cbn [down_blocks]. destruct (Z.ltb_spec (y1 + bs) y0); [lia|reflexivity]. Qed.
Lemma down_rest_none y0 y1 m0 b0 d0 m1 b1 d1 : y0 <= y1 -> down_rest y0 y1 m0 b0 d0 m1 b1 d1 y1 = [].
Proof. intros H. unfold down_rest. rewrite zfor_nil by lia. reflexivity. Qed.

Lemma slope_mono dx dx' dy : Z.abs dx <= 2 ^ 25 -> Z.abs dx' <= 2 ^ 25 -> - 2 ^ 25 <= dy < 0 -> dx <= dx' ->
  (R64 (slope dx' dy) <= R64 (slope dx dy))%R.
Proof.
  intros H H' Hy Hle. destruct (slope_R dx dy) as [_ ->]; [lia..|]. destruct (slope_R dx' dy) as [_ ->]; [lia..|].
  apply rnd_le. unfold Rdiv. assert (D : (IZR dy < 0)%R) by (apply IZR_lt; lia). apply Rinv_lt_0_compat in D.
  apply IZR_le in Hle. nra.
Qed.

Definition blocks_of fuel (p0 p1 p2 : point) bs := normal_triangle_blocks fuel (px p0) (py p0) (px p1) (py p1) (px p2) (py p2) bs.

Lemma blocks_lines fuel bs p0 p1 p2 :
  1 <= bs <= 2 ^ 24 -> 2 ^ 56 <= Z.of_nat fuel ->
  (Z.abs (px p0) <= 2 ^ 24 /\ Z.abs (py p0) <= 2 ^ 24) /\ (Z.abs (px p1) <= 2 ^ 24 /\ Z.abs (py p1) <= 2 ^ 24) /\
  (Z.abs (px p2) <= 2 ^ 24 /\ Z.abs (py p2) <= 2 ^ 24) -> py p2 <= py p1 <= py p0 ->
  exists ev, blocks_of fuel p0 p1 p2 bs = Some ev /\ forall x y, cov bs x y ev = cov bs x y (lines_of p0 p1 p2).
Proof.
  destruct p0 as [x0 y0], p1 as [x1 y1], p2 as [x2 y2]. cbn [px py]. intros Hbs Hf HB HS.
  assert (Hf1 : (1 <= fuel)%nat) by lia.
  unfold blocks_of, normal_triangle_blocks, lines_of. cbn [px py]. cbv zeta.
  destruct (Z.eqb_spec y1 y2) as [E12|N12].
  - (* y1 = y2 *)
    subst y2.
    destruct (Z.eq_dec y0 y1) as [->|N01].
    + (* all equal: nothing is drawn *)
      set (T := if x2 <? x1 then (x2, x1) else (x1, x2)). destruct T as [xa xb].
      unfold bottom_triangle_lines, flat_triangle_lines, fill_triangle_lines. rewrite (zfor_nil y1 y1) by lia. cbn [map].
      destruct (flt _ _); cbn iota beta; rewrite (up_none fuel bs y1 _ _ _ _ (y1 - 1)) by lia; rewrite up_rest_none by lia;
      (destruct (flt (f64_of_Z x1) (f64_of_Z x2)); destruct (flt _ _);
        rewrite down_none, down_rest_none by lia; eexists; (split; [reflexivity|]); reflexivity).
    + set (A := slope (x1 - x0) (y1 - y0)). set (B := slope (x2 - x0) (y1 - y0)).
      assert (HA : okm A) by (apply okm_slope; lia). assert (HBm : okm B) by (apply okm_slope; lia).
      assert (Hx1 : okb (f64_of_Z x1)) by (apply okb_Z; lia). assert (Hx2 : okb (f64_of_Z x2)) by (apply okb_Z; lia).
      assert (G : forall (l r : Z) (ml mr ml' mr' : f64), okm ml -> okm mr -> okm ml' -> okm mr' -> R64 ml = R64 ml' -> R64 mr = R64 mr' ->
        okb (f64_of_Z l) -> okb (f64_of_Z r) ->
        exists ev, match down_blocks fuel bs y0 y1 ml (f64_of_Z l) 0 mr (f64_of_Z r) 0 y1 with
          | Some (e3, i) => Some ([] ++ [] ++ e3 ++ down_rest y0 y1 ml (f64_of_Z l) 0 mr (f64_of_Z r) 0 i)
          | None => None end = Some ev /\
          forall x y, cov bs x y ev = cov bs x y (fill_triangle_lines y1 y0 (f64_of_Z l) (f64_of_Z r) ml' mr')).
      { intros l r ml mr ml' mr' H1 H2 H3 H4 H5 H6 H7 H8.
        destruct (down_part bs y0 y1 ml (f64_of_Z l) 0 mr (f64_of_Z r) 0 fuel) as (e & i & E & C); auto; try lia.
        rewrite E. eexists. split; [reflexivity|]. intros x y. cbn [app]. rewrite C.
        unfold fill_triangle_lines.
        rewrite (cov_rows bs x y (fun i => go_int (lin ml' (f64_of_Z l) (i - y1))) (fun i => go_int (lin mr' (f64_of_Z r) (i - y1)))).
        destruct (Z.leb_spec y1 y), (Z.ltb_spec y y0); try reflexivity. cbn [andb].
        rewrite (lin_same ml ml'), (lin_same mr mr') by (auto; lia). rewrite Z.add_0_r. reflexivity. }
      rewrite Z.sub_diag.
      assert (LR : (R64 (f64_of_Z x1) = IZR x1)%R) by (apply of_Z_val; lia).
      assert (LR2 : (R64 (f64_of_Z x2) = IZR x2)%R) by (apply of_Z_val; lia).
      unfold bottom_triangle_lines, flat_triangle_lines.
      assert (FL : flt (f64_of_Z x1) (f64_of_Z x2) = (x1 <? x2)).
      { rewrite flt_R by (apply Hx1 || apply Hx2). rewrite LR, LR2. destruct (Z.ltb_spec x1 x2).
        - apply Rlt_bool_true. apply IZR_lt; lia.
        - apply Rlt_bool_false. apply IZR_le; lia. }
      assert (FA : flt A B = Rlt_bool (R64 A) (R64 B)) by (apply flt_R; [apply HA|apply HBm]).
      assert (FB : flt B A = Rlt_bool (R64 B) (R64 A)) by (apply flt_R; [apply HA || apply HBm|apply HA]).
      destruct (flt (slope (x2 - x1) 0) B); cbn iota beta; rewrite (up_none fuel bs y1 _ _ _ _ (y1 - 1)) by lia;
        rewrite up_rest_none by lia; rewrite FL; clear FL.
      * (* swap: the pair is (A, B) *)
        fold A. rewrite FA.
        destruct (Z.ltb_spec x1 x2) as [Hlt|Hge].
        -- destruct (Z.ltb_spec x2 x1); [lia|].
           assert (M : (R64 B <= R64 A)%R) by (apply slope_mono; lia).
           destruct (Rlt_bool_spec (R64 A) (R64 B)); [lra|]. apply G; auto.
        -- assert (M : (R64 A <= R64 B)%R) by (apply slope_mono; lia).
           destruct (Z.ltb_spec x2 x1).
           ++ destruct (Rlt_bool_spec (R64 A) (R64 B)); apply G; auto; fold A B; lra.
           ++ assert (x1 = x2) by lia. subst x2. destruct (Rlt_bool_spec (R64 A) (R64 B)); apply G; auto.
      * fold A. rewrite FB.
        destruct (Z.ltb_spec x1 x2) as [Hlt|Hge].
        -- destruct (Z.ltb_spec x2 x1); [lia|].
           assert (M : (R64 B <= R64 A)%R) by (apply slope_mono; lia).
           destruct (Rlt_bool_spec (R64 B) (R64 A)); apply G; auto; fold A B; lra.
        -- assert (M : (R64 A <= R64 B)%R) by (apply slope_mono; lia).
           destruct (Z.ltb_spec x2 x1).
           ++ destruct (Rlt_bool_spec (R64 B) (R64 A)); [lra|]. apply G; auto.
           ++ assert (x1 = x2) by lia. subst x2. destruct (Rlt_bool_spec (R64 B) (R64 A)); apply G; auto.
  - (* y2 < y1 *)
    set (m0 := slope (x2 - x0) (y2 - y0)). set (m1 := slope (x2 - x1) (y2 - y1)).
    assert (H0 : okm m0) by (apply okm_slope; lia). assert (H1 : okm m1) by (apply okm_slope; lia).
    assert (Hx1 : okb (f64_of_Z x1)) by (apply okb_Z; lia). assert (Hx2 : okb (f64_of_Z x2)) by (apply okb_Z; lia).
    assert (FS : flt m1 m0 = Rlt_bool (R64 m1) (R64 m0)) by (apply flt_R; [apply H1|apply H0]).
    destruct (Z.eqb_spec y0 y1) as [E01|N01].
    + subst y1.
      assert (G : forall ml mr ml' mr', okm ml -> okm mr -> okm ml' -> okm mr' -> R64 ml = R64 ml' -> R64 mr = R64 mr' -> (R64 ml <= R64 mr)%R ->
        forall (k : Z -> list event), (forall i, k i = up_rest y2 ml (f64_of_Z x2) mr (f64_of_Z x2) i) ->
        exists ev, match up_blocks fuel bs y2 ml (f64_of_Z x2) mr (f64_of_Z x2) (y0 - 1) with
          | Some (e1, i) => Some (e1 ++ k i ++ [] ++ []) | None => None end = Some ev /\
        forall x y, cov bs x y ev = cov bs x y (fill_triangle_lines y2 y0 (f64_of_Z x2) (f64_of_Z x2) ml' mr')).
      { intros ml mr ml' mr' Q1 Q2 Q3 Q4 Q5 Q6 Q7 k Hk.
        destruct (up_part bs y0 y2 ml (f64_of_Z x2) mr fuel) as (e & i & E & C); auto; try lia.
        rewrite E. eexists. split; [reflexivity|]. intros x y. rewrite Hk. cbn [app]. rewrite app_nil_r, C.
        unfold fill_triangle_lines.
        rewrite (cov_rows bs x y (fun i => go_int (lin ml' (f64_of_Z x2) (i - y2))) (fun i => go_int (lin mr' (f64_of_Z x2) (i - y2)))).
        destruct (Z.leb_spec y2 y), (Z.ltb_spec y y0); try reflexivity. cbn [andb].
        rewrite (lin_same ml ml'), (lin_same mr mr') by (auto; lia). reflexivity. }
      unfold top_triangle_lines, flat_triangle_lines. rewrite Z.gtb_ltb.
      destruct (flt m1 m0); cbn iota beta.
      * (* swap *)
        destruct (Rlt_bool_spec (R64 m1) (R64 m0)) as [Hlt|]; [|discriminate].
        destruct (Z.ltb_spec x1 x0) as [L|L].
        -- destruct (G m1 m0 m1 m0 H1 H0 H1 H0 eq_refl eq_refl ltac:(lra) (fun i => up_rest y2 m1 (f64_of_Z x2) m0 (f64_of_Z x2) i) ltac:(reflexivity)) as (ev & E & C).
           destruct (up_blocks _ _ _ _ _ _ _ _) as [[e1 i]|]; [|discriminate].
           rewrite down_none, down_rest_none by lia. exists ev. split; [exact E|exact C].
        -- assert (M : (R64 m0 <= R64 m1)%R) by (apply slope_mono; lia). lra.
      * destruct (Rlt_bool_spec (R64 m1) (R64 m0)) as [|Hge]; [discriminate|].
        destruct (Z.ltb_spec x1 x0) as [L|L].
        -- assert (M : (R64 m1 <= R64 m0)%R) by (apply slope_mono; lia).
           destruct (G m0 m1 m1 m0 H0 H1 H1 H0 ltac:(lra) ltac:(lra) ltac:(lra) (fun i => up_rest y2 m0 (f64_of_Z x2) m1 (f64_of_Z x2) i) ltac:(reflexivity)) as (ev & E & C).
           destruct (up_blocks _ _ _ _ _ _ _ _) as [[e1 i]|]; [|discriminate].
           rewrite down_none, down_rest_none by lia. exists ev. split; [exact E|exact C].
        -- destruct (G m0 m1 m0 m1 H0 H1 H0 H1 eq_refl eq_refl Hge (fun i => up_rest y2 m0 (f64_of_Z x2) m1 (f64_of_Z x2) i) ltac:(reflexivity)) as (ev & E & C).
           destruct (up_blocks _ _ _ _ _ _ _ _) as [[e1 i]|]; [|discriminate].
           rewrite down_none, down_rest_none by lia. exists ev. split; [exact E|exact C].
    + (* three different heights *)
      unfold normal_triangle_lines. cbv zeta. fold m0 m1.
      set (m2 := slope (x1 - x0) (y1 - y0)). assert (H2 : okm m2) by (apply okm_slope; lia).
      destruct (flt m1 m0) eqn:ES; cbn iota beta.
      * destruct (Rlt_bool_spec (R64 m1) (R64 m0)) as [Hlt|]; [|discriminate].
        destruct (up_part bs y1 y2 m1 (f64_of_Z x2) m0 fuel) as (e & i & E & C); auto; try lia; try lra.
        rewrite E.
        destruct (down_part bs y0 y1 m2 (f64_of_Z x1) 0 m0 (f64_of_Z x2) (y1 - y2) fuel) as (e' & i' & E' & C'); auto; try lia.
        rewrite E'. eexists. split; [reflexivity|]. intros x y. rewrite app_assoc, (cov_app _ _ _ (e ++ _)), C, C'.
        rewrite cov_app.
        rewrite (cov_rows bs x y (fun i => go_int (lin m1 (f64_of_Z x2) (i - y2))) (fun i => go_int (lin m0 (f64_of_Z x2) (i - y2)))).
        rewrite (cov_rows bs x y (fun i => go_int (lin m2 (f64_of_Z x1) (i - y1 + 0))) (fun i => go_int (lin m0 (f64_of_Z x2) (i - y1 + (y1 - y2))))).
        reflexivity.
      * destruct (Rlt_bool_spec (R64 m1) (R64 m0)) as [|Hge]; [discriminate|].
        destruct (up_part bs y1 y2 m0 (f64_of_Z x2) m1 fuel) as (e & i & E & C); auto; try lia; try lra.
        rewrite E.
        destruct (down_part bs y0 y1 m0 (f64_of_Z x2) (y1 - y2) m2 (f64_of_Z x1) 0 fuel) as (e' & i' & E' & C'); auto; try lia.
        rewrite E'. eexists. split; [reflexivity|]. intros x y. rewrite app_assoc, (cov_app _ _ _ (e ++ _)), C, C'.
        rewrite cov_app.
        rewrite (cov_rows bs x y (fun i => go_int (lin m0 (f64_of_Z x2) (i - y2))) (fun i => go_int (lin m1 (f64_of_Z x2) (i - y2)))).
        rewrite (cov_rows bs x y (fun i => go_int (lin m0 (f64_of_Z x2) (i - y1 + (y1 - y2)))) (fun i => go_int (lin m2 (f64_of_Z x1) (i - y1 + 0)))).
        reflexivity.
Qed.

Lemma dda_blocks_total fuel t bs : 1 <= bs <= 2 ^ 24 -> in_box 24 t -> 2 ^ 56 <= Z.of_nat fuel ->
  exists ev, dda_blocks fuel t bs = Some ev /\ Permutation (flat_map (event_pixels bs) ev) (dda_pixels t).
Proof.
  intros Hbs HB Hf. unfold dda_blocks. destruct (sort_vertices t) as [[p0 p1] p2] eqn:E.
  destruct (sort_vertices_spec _ _ _ _ E) as [S _]. pose proof (in_box_sorted _ _ _ _ _ HB E) as B.
  destruct (blocks_lines fuel bs p0 p1 p2 Hbs Hf B S) as (ev & Ev & C).
  exists ev. split; [exact Ev|]. rewrite (dda_pixels_events t bs). apply perm_of_cov. intros x y. rewrite C.
  unfold dda_lines. rewrite E. reflexivity.
Qed.

(** More fuel does not change a result. *)
Lemma block_run_more bs minX yb k : forall f x r, (f <= k)%nat -> block_run f bs minX yb x = Some r -> block_run k bs minX yb x = Some r.
Proof.
  induction k as [|k IH]; intros f x r Hle H; destruct f as [|f]; try discriminate; [lia|].
  cbn [block_run] in *. destruct (flt _ _); [|exact H].
  destruct (block_run f bs minX yb (x + bs)) as [q|] eqn:E; [|discriminate].
  rewrite (IH f _ q) by (lia || exact E). exact H.
Qed.

Lemma up_blocks_more bs y2 m0 b0 m1 b1 k : forall f i r, (f <= k)%nat ->
  up_blocks f bs y2 m0 b0 m1 b1 i = Some r -> up_blocks k bs y2 m0 b0 m1 b1 i = Some r.
Proof.
  induction k as [|k IH]; intros f i r Hle H; destruct f as [|f]; try discriminate; [lia|].
  cbn [up_blocks] in *. destruct (i >? y2); [|exact H]. destruct (fle _ _); [exact H|].
  destruct (block_run (S f) _ _ _ _) as [[mid x]|] eqn:E; [|discriminate].
  rewrite (block_run_more _ _ _ (S k) (S f) _ (mid, x)) by (lia || exact E).
  destruct (up_blocks f _ _ _ _ _ _ _) as [q|] eqn:E2; [|discriminate].
  rewrite (IH f _ q) by (lia || exact E2). exact H.
Qed.

Lemma down_blocks_more bs y0 y1 m0 b0 d0 m1 b1 d1 k : forall f i r, (f <= k)%nat ->
  down_blocks f bs y0 y1 m0 b0 d0 m1 b1 d1 i = Some r -> down_blocks k bs y0 y1 m0 b0 d0 m1 b1 d1 i = Some r.
Proof.
  induction k as [|k IH]; intros f i r Hle H; destruct f as [|f]; try discriminate; [lia|].
  cbn [down_blocks] in *. destruct (i + bs <? y0); [|exact H]. destruct (fle _ _); [exact H|].
  destruct (block_run (S f) _ _ _ _) as [[mid x]|] eqn:E; [|discriminate].
  rewrite (block_run_more _ _ _ (S k) (S f) _ (mid, x)) by (lia || exact E).
  destruct (down_blocks f _ _ _ _ _ _ _ _ _ _) as [q|] eqn:E2; [|discriminate].
  rewrite (IH f _ q) by (lia || exact E2). exact H.
Qed.

Lemma dda_blocks_more f k t bs ev : (f <= k)%nat -> dda_blocks f t bs = Some ev -> dda_blocks k t bs = Some ev.
Proof.
  intros Hle. unfold dda_blocks. destruct (sort_vertices t) as [[p0 p1] p2].
  unfold normal_triangle_blocks. cbv zeta.
  set (sw := flt _ _). destruct sw; cbn iota beta;
  (destruct (up_blocks f _ _ _ _ _ _ _) as [[e1 i]|] eqn:E1; [|discriminate]; rewrite (up_blocks_more _ _ _ _ _ _ k f _ _ Hle E1);
   destruct (py p1 =? py p2);
   [ set (s2 := flt (f64_of_Z (px p1)) _); destruct s2;
     match goal with |- context [flt ?a ?b] => destruct (flt a b) end | ];
   (destruct (down_blocks f _ _ _ _ _ _ _ _ _ _) as [[e3 i']|] eqn:E2; [|discriminate];
    rewrite (down_blocks_more _ _ _ _ _ _ _ _ _ k f _ _ Hle E2); auto)).
Qed.

Lemma dda_blocks_spec t bs : 1 <= bs <= 2 ^ 24 -> in_box 24 t ->
  (exists ev N, forall fuel, (N <= fuel)%nat -> dda_blocks fuel t bs = Some ev) /\
  (forall fuel ev, dda_blocks fuel t bs = Some ev -> Permutation (flat_map (event_pixels bs) ev) (dda_pixels t)).
Proof.
  intros Hbs HB. split.
  - destruct (dda_blocks_total (Z.to_nat (2 ^ 56)) t bs Hbs HB) as (ev & E & _); [rewrite Z2Nat.id; lia|].
    exists ev, (Z.to_nat (2 ^ 56)). intros fuel Hf. eapply dda_blocks_more; eauto.
  - intros fuel ev E. destruct (dda_blocks_total (Nat.max fuel (Z.to_nat (2 ^ 56))) t bs Hbs HB) as (ev' & E' & P); [lia|].
    rewrite (dda_blocks_more fuel _ t bs ev (Nat.le_max_l _ _) E) in E'. injection E' as <-. exact P.
Qed.

(** Polygons. *)
Lemma fan_verts p t : In t (polygon_triangulate p) -> forall q, In q (verts t) -> In q p.
Proof.
  destruct p as [|p0 [|p1 rest]]; try contradiction. cbn [polygon_triangulate].
  assert (G : forall l prev, In t (fan_from p0 prev l) -> forall q, In q (verts t) -> q = p0 \/ q = prev \/ In q l).
  { induction l as [|a l IH]; intros prev; [contradiction|]. cbn [fan_from]. intros [<-|H] q Hq.
    - cbn in Hq. cbn. destruct Hq as [<-|[<-|[<-|[]]]]; auto.
    - destruct (IH a H q Hq) as [E|[E|E]]; cbn; auto. }
  intros H q Hq. destruct (G rest p1 H q Hq) as [E|[E|E]]; cbn; auto.
Qed.

Definition poly_box (k : Z) (p : list point) : Prop := forall q, In q p -> Z.abs (px q) <= 2 ^ k /\ Z.abs (py q) <= 2 ^ k.

Lemma dda_polygon_blocks_spec p bs : 1 <= bs <= 2 ^ 24 -> poly_box 24 p ->
  (exists ev N, forall fuel, (N <= fuel)%nat -> dda_polygon_blocks fuel p bs = Some ev) /\
  (forall fuel ev, dda_polygon_blocks fuel p bs = Some ev -> Permutation (flat_map (event_pixels bs) ev) (dda_polygon p)).
Proof.
  intros Hbs HB. unfold dda_polygon_blocks, dda_polygon.
  assert (HT : forall t, In t (polygon_triangulate p) -> in_box 24 t).
  { intros t Ht q Hq. apply HB. eapply fan_verts; eauto. }
  revert HT. generalize (polygon_triangulate p) as l. clear HB. induction l as [|t l IH]; intros HT.
  - split; [exists [], O; reflexivity|]. intros fuel ev E. cbn in E. injection E as <-. apply Permutation_refl.
  - destruct (dda_blocks_spec t bs Hbs (HT t (or_introl eq_refl))) as [(ev & N & E) P].
    destruct IH as [(ev' & N' & E') P']. { intros u Hu. apply HT. now right. }
    split.
    + exists (ev ++ ev'), (Nat.max N N'). intros fuel Hf. cbn [map concat_events]. rewrite E, E' by lia. reflexivity.
    + intros fuel ev2 E2. cbn [map concat_events] in E2. destruct (dda_blocks fuel t bs) as [e1|] eqn:D; [|discriminate].
      destruct (concat_events _) as [e2|] eqn:D2; [|discriminate]. injection E2 as <-.
      rewrite flat_map_app. cbn [flat_map]. apply Permutation_app; [eapply P; exact D|eapply P'; exact D2].
Qed.

(** Block size 0: the innermost loop never ends. *)
Lemma block_run_zero fuel minX yb x : flt (f64_of_Z x) minX = true -> block_run fuel 0 minX yb x = None.
Proof.
  intros H. induction fuel as [|k IH]; [reflexivity|]. cbn [block_run]. rewrite Z.add_0_r, H, IH. reflexivity.
Qed.

Definition wide := Tri (Pt 0 0) (Pt 10 0) (Pt 0 10).
Lemma wide_zero fuel : dda_blocks fuel wide 0 = None.
Proof.
  unfold dda_blocks, wide.
  change (sort_vertices (Tri (Pt 0 0) (Pt 10 0) (Pt 0 10))) with (Pt 0 10, Pt 0 0, Pt 10 0).
  destruct fuel as [|k]; [reflexivity|].
  unfold normal_triangle_blocks. cbv zeta. cbn [px py].
  set (sw := flt _ _). destruct sw eqn:Esw; [exfalso; revert Esw; vm_compute; discriminate|]. cbn iota beta.
  cbn [up_blocks]. change (0 - 1 >? 0) with false. cbn iota beta. change (0 =? 0) with true. cbn iota.
  set (s2 := flt _ _). destruct s2 eqn:Es2; [|exfalso; revert Es2; vm_compute; discriminate]. cbn iota beta.
  clear Esw Es2 sw s2. cbn [down_blocks]. change (0 + 0 <? 10) with true. cbn iota beta zeta.
  set (s4 := fle _ _). destruct s4 eqn:Es4; [exfalso; revert Es4; vm_compute; discriminate|].
  rewrite block_run_zero; [reflexivity|]. vm_compute. reflexivity.
Qed.
