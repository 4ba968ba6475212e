(** The line calls of the block rasteriser: rows of the triangle, never inverted. *)
From Coq Require Import ZArith Reals List Bool Lia Lra Permutation Psatz.
From Flocq Require Import Core IEEE754.BinarySingleNaN.
From Verif Require Import GoNum FloatLemmas M_Norm M_Geom S_Geom M_Raster S_Raster L_Raster1 L_Raster2 L_Raster3 L_Raster4 L_Raster5.
Import ListNotations.
Open Scope Z_scope.

Definition from (lo hi : Z) (ls : list event) (e : event) : Prop :=
  match e with Line x0 x1 y => lo <= y < hi /\ (x0 <= x1 \/ In e ls) | Block _ _ => True end.
Lemma from_mono lo hi lo' hi' ls e : lo' <= lo -> hi <= hi' -> from lo hi ls e -> from lo' hi' ls e.
Proof. destruct e; cbn; [intros A B [C D]; split; [lia|exact D]|trivial]. Qed.
Lemma Forall_from_mono lo hi lo' hi' ls l : lo' <= lo -> hi <= hi' -> Forall (from lo hi ls) l -> Forall (from lo' hi' ls) l.
Proof. intros A B. apply Forall_impl. intros e. apply from_mono; assumption. Qed.

Lemma block_run_from fuel bs minX yb lo hi ls : forall x l x', block_run fuel bs minX yb x = Some (l, x') -> Forall (from lo hi ls) l.
Proof.
  induction fuel as [|fuel IH]; intros x l x'; cbn [block_run]; [discriminate|]. destruct (flt _ _).
  - destruct (block_run fuel bs minX yb (x + bs)) as [[m z]|] eqn:E; [|discriminate]. intros [= <- <-]. constructor; [exact I|apply (IH _ _ _ E)].
  - intros [= <- <-]. constructor.
Qed.
Lemma Forall_map_zfor (f : Z -> event) (P : event -> Prop) lo hi : (forall y, lo <= y < hi -> P (f y)) -> Forall P (map f (zfor lo hi)).
Proof. intros H. apply Forall_forall. intros e He. apply in_map_iff in He as (y & <- & Hy). apply H, zfor_In, Hy. Qed.

Lemma up_blocks_from bs y2 m0 b0 m1 ls :
  (1 <= bs <= 2 ^ 24)%Z -> okm m0 -> okb b0 -> okm m1 -> (R64 m0 <= R64 m1)%R ->
  forall fuel i l i', (i <= y2 + 2 ^ 25)%Z -> (2 ^ 55 <= Z.of_nat fuel + y2 - i)%Z -> (y2 - 1 <= i)%Z ->
  up_blocks fuel bs y2 m0 b0 m1 b0 i = Some (l, i') -> i' <= i /\ Forall (from y2 (i + 1) ls) l.
Proof.
  intros Hbs Hm0 Hb0 Hm1 Hm. induction fuel as [|fuel IH]; intros i lo io Hi Hf Hlo; [lia|].
  cbn [up_blocks]. destruct (i >? y2)%Z eqn:Ei; [|intros [= <- <-]; split; [lia|constructor]].
  assert (Hgt : (y2 < i)%Z) by lia.
  destruct (fle _ _) eqn:Eb; [intros [= <- <-]; split; [lia|constructor]|].
  destruct (band_spec (S fuel) bs m0 b0 m1 b0 (i - y2) (i - bs + 1 - y2) (i - y2) (i - bs + 1 - y2) (i - bs + 1))
    as (l & x' & E & C & Gx & GL & GR & Hlt); auto; try lia.
  set (maxX := two_max _ _ _ _) in *. set (minX := two_min _ _ _ _) in *.
  assert (Htop : (y2 < i - bs + 1)%Z).
  { apply Z.nle_gt. intros Hle.
    assert (Dt : (Z.abs (i - bs + 1 - y2) <= 2 ^ 26)%Z) by lia. assert (Di : (Z.abs (i - y2) <= 2 ^ 26)%Z) by lia.
    destruct (lin_R m0 b0 _ Hm0 Hb0 Dt) as (F1 & E1 & B1). destruct (lin_R m1 b0 _ Hm1 Hb0 Dt) as (F2 & E2 & B2).
    destruct (lin_R m0 b0 _ Hm0 Hb0 Di) as (F3 & E3 & B3). destruct (lin_R m1 b0 _ Hm1 Hb0 Di) as (F4 & E4 & B4).
    destruct (fmax_R _ _ F3 F1) as [FX EX]. destruct (fmin_R _ _ F4 F2) as [FN EN].
    fold (two_max m0 b0 (i - y2) (i - bs + 1 - y2)) in FX, EX. fold (two_min m1 b0 (i - y2) (i - bs + 1 - y2)) in FN, EN.
    fold maxX in FX, EX. fold minX in FN, EN.
    assert (L1 : (linR m1 b0 (i - bs + 1 - y2) <= linR m0 b0 (i - bs + 1 - y2))%R).
    { unfold linR. apply rnd_le, Rplus_le_compat_r, rnd_le. assert ((IZR (i - bs + 1 - y2) <= 0)%R) by (apply IZR_le; lia). nra. }
    assert (L2 : (R64 minX <= R64 maxX)%R).
    { rewrite EX, EN, E1, E2. eapply Rle_trans; [apply Rmin_r|]. eapply Rle_trans; [exact L1|apply Rmax_r]. }
    assert (BX : (Rabs (R64 maxX) <= IZR (2 ^ 52))%R) by (rewrite EX, E1, E3; apply Rmax_case; assumption).
    pose proof (go_int_small maxX (2 ^ 52) FX BX ltac:(lia)) as GX.
    rewrite plus_IZR, GX in Hlt. pose proof (trunc_gt (R64 maxX)).
    assert ((1 <= IZR bs)%R) by (apply IZR_le; lia). lra. }
  rewrite E. destruct (up_blocks fuel bs y2 m0 b0 m1 b0 (i - bs)) as [[rest j]|] eqn:Er; [|discriminate].
  destruct (IH (i - bs) rest j ltac:(lia) ltac:(lia) ltac:(lia) Er) as [J1 J2]. intros [= <- <-]. split; [lia|].
  apply Forall_app. split; [|apply Forall_app; split; [|apply Forall_app; split]].
  - apply Forall_map_zfor. intros y Hy. split; [lia|left; apply GL; lia].
  - apply (block_run_from _ _ _ _ _ _ _ _ _ _ E).
  - apply Forall_map_zfor. intros y Hy. split; [lia|left; apply GR; lia].
  - apply (Forall_from_mono y2 (i - bs + 1)); [lia..|exact J2].
Qed.

Lemma up_part_from bs y1 y2 m0 b0 m1 fuel ls l i :
  1 <= bs <= 2 ^ 24 -> okm m0 -> okb b0 -> okm m1 -> (R64 m0 <= R64 m1)%R ->
  y2 < y1 <= y2 + 2 ^ 25 -> 2 ^ 56 <= Z.of_nat fuel ->
  up_blocks fuel bs y2 m0 b0 m1 b0 (y1 - 1) = Some (l, i) -> Forall (from y2 y1 ls) (l ++ up_rest y2 m0 b0 m1 b0 i).
Proof.
  intros Hbs Hm0 Hb0 Hm1 Hm Hy Hf E. destruct (up_blocks_from bs y2 m0 b0 m1 ls Hbs Hm0 Hb0 Hm1 Hm fuel (y1 - 1) l i ltac:(lia) ltac:(lia) ltac:(lia) E) as [H1 H2].
  apply Forall_app. split; [apply (Forall_from_mono y2 (y1 - 1 + 1)); [lia..|exact H2]|].
  unfold up_rest. apply Forall_map_zfor. intros k Hk. split; [lia|left]. rewrite !go_int_lin by (auto; lia). apply Ztrunc_le.
  unfold linR. apply rnd_le, Rplus_le_compat_r, rnd_le. assert ((0 <= IZR (i - k - y2))%R) by (apply IZR_le; lia). nra.
Qed.

Lemma down_blocks_from bs y0 y1 m0 b0 d0 m1 b1 d1 ls :
  (1 <= bs <= 2 ^ 24)%Z -> okm m0 -> okb b0 -> okm m1 -> okb b1 ->
  (0 <= d0 <= 2 ^ 25)%Z -> (0 <= d1 <= 2 ^ 25)%Z -> (y0 <= y1 + 2 ^ 25)%Z ->
  forall fuel i l i', (y1 <= i)%Z -> (i <= y0)%Z -> (2 ^ 55 <= Z.of_nat fuel + i - y1)%Z ->
  down_blocks fuel bs y0 y1 m0 b0 d0 m1 b1 d1 i = Some (l, i') -> i <= i' /\ Forall (from y1 y0 ls) l.
Proof.
  intros Hbs Hm0 Hb0 Hm1 Hb1 Hd0 Hd1 Hy0. induction fuel as [|fuel IH]; intros i lo io Hi Hi0 Hf; [lia|].
  cbn [down_blocks]. destruct (Z.ltb_spec (i + bs) y0) as [Hlt0|Hge]; [|intros [= <- <-]; split; [lia|constructor]].
  destruct (fle _ _) eqn:Eb; [intros [= <- <-]; split; [lia|constructor]|].
  destruct (band_spec (S fuel) bs m0 b0 m1 b1 (i - y1 + d0) (i + bs - 1 - y1 + d0) (i - y1 + d1) (i + bs - 1 - y1 + d1) i)
    as (l & x' & E & C & Gx & GL & GR & Hlt); auto; try lia.
  rewrite E. destruct (down_blocks fuel bs y0 y1 m0 b0 d0 m1 b1 d1 (i + bs)) as [[rest j]|] eqn:Er; [|discriminate].
  destruct (IH (i + bs) rest j ltac:(lia) ltac:(lia) ltac:(lia) Er) as [J1 J2]. intros [= <- <-]. split; [lia|].
  apply Forall_app. split; [|apply Forall_app; split; [|apply Forall_app; split]].
  - apply Forall_map_zfor. intros y Hy. split; [lia|left; apply GL; lia].
  - apply (block_run_from _ _ _ _ _ _ _ _ _ _ E).
  - apply Forall_map_zfor. intros y Hy. split; [lia|left; apply GR; lia].
  - exact J2.
Qed.

Lemma down_part_from bs y0 y1 m0 b0 d0 m1 b1 d1 fuel ls l i (L R : Z -> Z) :
  1 <= bs <= 2 ^ 24 -> okm m0 -> okb b0 -> okm m1 -> okb b1 ->
  0 <= d0 <= 2 ^ 25 -> 0 <= d1 <= 2 ^ 25 -> y1 <= y0 <= y1 + 2 ^ 25 -> 2 ^ 56 <= Z.of_nat fuel ->
  down_blocks fuel bs y0 y1 m0 b0 d0 m1 b1 d1 y1 = Some (l, i) ->
  (forall y, y1 <= y < y0 -> go_int (lin m0 b0 (y - y1 + d0)) = L y /\ go_int (lin m1 b1 (y - y1 + d1)) = R y /\ In (Line (L y) (R y) y) ls) ->
  Forall (from y1 y0 ls) (l ++ down_rest y0 y1 m0 b0 d0 m1 b1 d1 i).
Proof.
  intros Hbs Hm0 Hb0 Hm1 Hb1 Hd0 Hd1 Hy Hf E HL.
  destruct (down_blocks_from bs y0 y1 m0 b0 d0 m1 b1 d1 ls Hbs Hm0 Hb0 Hm1 Hb1 Hd0 Hd1 ltac:(lia) fuel y1 l i ltac:(lia) ltac:(lia) ltac:(lia) E) as [H1 H2].
  apply Forall_app. split; [exact H2|]. unfold down_rest. apply Forall_map_zfor. intros y Hyy. split; [lia|right].
  destruct (HL y ltac:(lia)) as (-> & -> & H). exact H.
Qed.

Lemma In_rows (L R : Z -> Z) lo hi y : lo <= y < hi -> In (Line (L y) (R y) y) (map (fun i => Line (L i) (R i) i) (zfor lo hi)).
Proof. intros H. apply (in_map (fun i => Line (L i) (R i) i)), zfor_In, H. Qed.

Lemma blocks_from fuel bs p0 p1 p2 :
  1 <= bs <= 2 ^ 24 -> 2 ^ 56 <= Z.of_nat fuel ->
  (Z.abs (px p0) <= 2 ^ 24 /\ Z.abs (py p0) <= 2 ^ 24) /\ (Z.abs (px p1) <= 2 ^ 24 /\ Z.abs (py p1) <= 2 ^ 24) /\
  (Z.abs (px p2) <= 2 ^ 24 /\ Z.abs (py p2) <= 2 ^ 24) -> py p2 <= py p1 <= py p0 ->
  forall ev, blocks_of fuel p0 p1 p2 bs = Some ev -> Forall (from (py p2) (py p0) (lines_of p0 p1 p2)) ev.
Proof.
  destruct p0 as [x0 y0], p1 as [x1 y1], p2 as [x2 y2]. cbn [px py]. intros Hbs Hf HB HS ev.
  assert (Hf1 : (1 <= fuel)%nat) by lia.
  unfold blocks_of, normal_triangle_blocks, lines_of. cbn [px py]. cbv zeta.
  destruct (Z.eqb_spec y1 y2) as [E12|N12].
  - (* y1 = y2 *)
    subst y2.
    destruct (Z.eq_dec y0 y1) as [->|N01].
    + set (T := if x2 <? x1 then (x2, x1) else (x1, x2)). destruct T as [xa xb].
      destruct (flt _ _); cbn iota beta; rewrite (up_none fuel bs y1 _ _ _ _ (y1 - 1)) by lia; rewrite up_rest_none by lia;
      (destruct (flt (f64_of_Z x1) (f64_of_Z x2)); destruct (flt _ _);
        rewrite down_none, down_rest_none by lia; intros [= <-]; constructor).
    + set (A := slope (x1 - x0) (y1 - y0)). set (B := slope (x2 - x0) (y1 - y0)).
      assert (HA : okm A) by (apply okm_slope; lia). assert (HBm : okm B) by (apply okm_slope; lia).
      assert (Hx1 : okb (f64_of_Z x1)) by (apply okb_Z; lia). assert (Hx2 : okb (f64_of_Z x2)) by (apply okb_Z; lia).
      assert (G : forall (l r : Z) (ml mr ml' mr' : f64), okm ml -> okm mr -> okm ml' -> okm mr' -> R64 ml = R64 ml' -> R64 mr = R64 mr' ->
        okb (f64_of_Z l) -> okb (f64_of_Z r) ->
        match down_blocks fuel bs y0 y1 ml (f64_of_Z l) 0 mr (f64_of_Z r) 0 y1 with
          | Some (e3, i) => Some ([] ++ [] ++ e3 ++ down_rest y0 y1 ml (f64_of_Z l) 0 mr (f64_of_Z r) 0 i)
          | None => None end = Some ev ->
          Forall (from y1 y0 (fill_triangle_lines y1 y0 (f64_of_Z l) (f64_of_Z r) ml' mr')) ev).
      { intros l r ml mr ml' mr' H1 H2 H3 H4 H5 H6 H7 H8.
        destruct (down_blocks fuel bs y0 y1 ml (f64_of_Z l) 0 mr (f64_of_Z r) 0 y1) as [[e3 i]|] eqn:E; [|discriminate].
        intros [= <-]. cbn [app].
        apply (down_part_from bs y0 y1 ml (f64_of_Z l) 0 mr (f64_of_Z r) 0 fuel _ e3 i (fun i => go_int (lin ml' (f64_of_Z l) (i - y1))) (fun i => go_int (lin mr' (f64_of_Z r) (i - y1)))); auto; try lia.
        intros y Hy. rewrite Z.add_0_r. rewrite (lin_same ml ml'), (lin_same mr mr') by (auto; lia). split; [reflexivity|]. split; [reflexivity|].
        unfold fill_triangle_lines. apply (In_rows (fun i => go_int (lin ml' (f64_of_Z l) (i - y1))) (fun i => go_int (lin mr' (f64_of_Z r) (i - y1)))). exact Hy. }
      rewrite Z.sub_diag.
      assert (LR : (R64 (f64_of_Z x1) = IZR x1)%R) by (apply of_Z_val; lia).
      assert (LR2 : (R64 (f64_of_Z x2) = IZR x2)%R) by (apply of_Z_val; lia).
      unfold bottom_triangle_lines, flat_triangle_lines.
      assert (FL : flt (f64_of_Z x1) (f64_of_Z x2) = (x1 <? x2)).
      { rewrite flt_R by (apply Hx1 || apply Hx2). rewrite LR, LR2. destruct (Z.ltb_spec x1 x2).
        - apply Rlt_bool_true. apply IZR_lt; lia.
        - apply Rlt_bool_false. apply IZR_le; lia. }
      assert (FA : flt A B = Rlt_bool (R64 A) (R64 B)) by (apply flt_R; [apply HA|apply HBm]).
      assert (FB : flt B A = Rlt_bool (R64 B) (R64 A)) by (apply flt_R; [apply HA || apply HBm|apply HA]).
      destruct (flt (slope (x2 - x1) 0) B); cbn iota beta; rewrite (up_none fuel bs y1 _ _ _ _ (y1 - 1)) by lia;
        rewrite up_rest_none by lia; rewrite FL; clear FL.
      * (* swap: the pair is (A, B) *)
        fold A. rewrite FA.
        destruct (Z.ltb_spec x1 x2) as [Hlt|Hge].
        -- destruct (Z.ltb_spec x2 x1); [lia|].
           assert (M : (R64 B <= R64 A)%R) by (apply slope_mono; lia).
           destruct (Rlt_bool_spec (R64 A) (R64 B)); [lra|]. apply G; auto.
        -- assert (M : (R64 A <= R64 B)%R) by (apply slope_mono; lia).
           destruct (Z.ltb_spec x2 x1).
           ++ destruct (Rlt_bool_spec (R64 A) (R64 B)); apply G; auto; fold A B; lra.
           ++ assert (x1 = x2) by lia. subst x2. destruct (Rlt_bool_spec (R64 A) (R64 B)); apply G; auto.
      * fold A. rewrite FB.
        destruct (Z.ltb_spec x1 x2) as [Hlt|Hge].
        -- destruct (Z.ltb_spec x2 x1); [lia|].
           assert (M : (R64 B <= R64 A)%R) by (apply slope_mono; lia).
           destruct (Rlt_bool_spec (R64 B) (R64 A)); apply G; auto; fold A B; lra.
        -- assert (M : (R64 A <= R64 B)%R) by (apply slope_mono; lia).
           destruct (Z.ltb_spec x2 x1).
           ++ destruct (Rlt_bool_spec (R64 B) (R64 A)); [lra|]. apply G; auto.
           ++ assert (x1 = x2) by lia. subst x2. destruct (Rlt_bool_spec (R64 B) (R64 A)); apply G; auto.
  - (* y2 < y1 *)
    set (m0 := slope (x2 - x0) (y2 - y0)). set (m1 := slope (x2 - x1) (y2 - y1)).
    assert (H0 : okm m0) by (apply okm_slope; lia). assert (H1 : okm m1) by (apply okm_slope; lia).
    assert (Hx1 : okb (f64_of_Z x1)) by (apply okb_Z; lia). assert (Hx2 : okb (f64_of_Z x2)) by (apply okb_Z; lia).
    assert (FS : flt m1 m0 = Rlt_bool (R64 m1) (R64 m0)) by (apply flt_R; [apply H1|apply H0]).
    destruct (Z.eqb_spec y0 y1) as [E01|N01].
    + subst y1.
      destruct (flt m1 m0) eqn:ES; cbn iota beta.
      * destruct (Rlt_bool_spec (R64 m1) (R64 m0)) as [Hlt|]; [|discriminate].
        destruct (up_blocks fuel bs y2 m1 (f64_of_Z x2) m0 (f64_of_Z x2) (y0 - 1)) as [[e1 i]|] eqn:E; [|discriminate].
        rewrite down_none, down_rest_none by lia. rewrite !app_nil_r. intros [= <-].
        apply (up_part_from bs y0 y2 m1 (f64_of_Z x2) m0 fuel); auto; try lia; try lra.
      * destruct (Rlt_bool_spec (R64 m1) (R64 m0)) as [|Hge]; [discriminate|].
        destruct (up_blocks fuel bs y2 m0 (f64_of_Z x2) m1 (f64_of_Z x2) (y0 - 1)) as [[e1 i]|] eqn:E; [|discriminate].
        rewrite down_none, down_rest_none by lia. rewrite !app_nil_r. intros [= <-].
        apply (up_part_from bs y0 y2 m0 (f64_of_Z x2) m1 fuel); auto; try lia; try lra.
    + (* three different heights *)
      unfold normal_triangle_lines. cbv zeta. fold m0 m1.
      set (m2 := slope (x1 - x0) (y1 - y0)). assert (H2 : okm m2) by (apply okm_slope; lia).
      destruct (flt m1 m0) eqn:ES; cbn iota beta.
      * destruct (Rlt_bool_spec (R64 m1) (R64 m0)) as [Hlt|]; [|discriminate].
        destruct (up_blocks fuel bs y2 m1 (f64_of_Z x2) m0 (f64_of_Z x2) (y1 - 1)) as [[e i]|] eqn:E; [|discriminate].
        destruct (down_blocks fuel bs y0 y1 m2 (f64_of_Z x1) 0 m0 (f64_of_Z x2) (y1 - y2) y1) as [[e' i']|] eqn:E'; [|discriminate].
        intros [= <-]. rewrite app_assoc. apply Forall_app. split.
        -- apply (Forall_from_mono y2 y1); [lia..|]. apply (up_part_from bs y1 y2 m1 (f64_of_Z x2) m0 fuel); auto; try lia; try lra.
        -- apply (Forall_from_mono y1 y0); [lia..|].
           apply (down_part_from bs y0 y1 m2 (f64_of_Z x1) 0 m0 (f64_of_Z x2) (y1 - y2) fuel _ e' i' (fun i => go_int (lin m2 (f64_of_Z x1) (i - y1 + 0))) (fun i => go_int (lin m0 (f64_of_Z x2) (i - y1 + (y1 - y2))))); auto; try lia.
           intros y Hy. split; [reflexivity|]. split; [reflexivity|]. apply in_or_app. right.
           apply (In_rows (fun i => go_int (lin m2 (f64_of_Z x1) (i - y1 + 0))) (fun i => go_int (lin m0 (f64_of_Z x2) (i - y1 + (y1 - y2))))). exact Hy.
      * destruct (Rlt_bool_spec (R64 m1) (R64 m0)) as [|Hge]; [discriminate|].
        destruct (up_blocks fuel bs y2 m0 (f64_of_Z x2) m1 (f64_of_Z x2) (y1 - 1)) as [[e i]|] eqn:E; [|discriminate].
        destruct (down_blocks fuel bs y0 y1 m0 (f64_of_Z x2) (y1 - y2) m2 (f64_of_Z x1) 0 y1) as [[e' i']|] eqn:E'; [|discriminate].
        intros [= <-]. rewrite app_assoc. apply Forall_app. split.
        -- apply (Forall_from_mono y2 y1); [lia..|]. apply (up_part_from bs y1 y2 m0 (f64_of_Z x2) m1 fuel); auto; try lia; try lra.
        -- apply (Forall_from_mono y1 y0); [lia..|].
           apply (down_part_from bs y0 y1 m0 (f64_of_Z x2) (y1 - y2) m2 (f64_of_Z x1) 0 fuel _ e' i' (fun i => go_int (lin m0 (f64_of_Z x2) (i - y1 + (y1 - y2)))) (fun i => go_int (lin m2 (f64_of_Z x1) (i - y1 + 0)))); auto; try lia.
           intros y Hy. split; [reflexivity|]. split; [reflexivity|]. apply in_or_app. right.
           apply (In_rows (fun i => go_int (lin m0 (f64_of_Z x2) (i - y1 + (y1 - y2)))) (fun i => go_int (lin m2 (f64_of_Z x1) (i - y1 + 0)))). exact Hy.
Qed.

(** The line calls for a triangle that is not degenerate. *)
Lemma dda_blocks_rows fuel t bs ev x0 x1 y : 1 <= bs <= 2 ^ 24 -> in_box 15 t -> tarea t <> 0 -> dda_blocks fuel t bs = Some ev ->
  In (Line x0 x1 y) ev -> ymin t <= y < ymax t /\ x0 <= x1.
Proof.
  intros Hbs HB HA Ev He. pose proof (in_box_mono 15 24 t ltac:(lia) HB) as HB'.
  set (k := Nat.max fuel (Z.to_nat (2 ^ 56))).
  pose proof (dda_blocks_more fuel k t bs ev (Nat.le_max_l _ _) Ev) as Ek.
  assert (Hk : 2 ^ 56 <= Z.of_nat k) by (unfold k; rewrite Nat2Z.inj_max, Z2Nat.id by lia; lia). clearbody k.
  unfold dda_blocks in Ek. destruct (sort_vertices t) as [[p0 p1] p2] eqn:E.
  destruct (sort_vertices_spec _ _ _ _ E) as [Hs _]. pose proof (in_box_sorted _ _ _ _ _ HB' E) as B.
  pose proof (blocks_from k bs p0 p1 p2 Hbs Hk B Hs ev Ek) as F. rewrite Forall_forall in F. specialize (F _ He).
  destruct (ybounds t p0 p1 p2 E) as [-> ->]. cbn [from] in F. destruct F as [F1 F2]. split; [exact F1|].
  destruct F2 as [F2|F2]; [exact F2|]. apply (lines_ordered t x0 x1 y HB HA). unfold dda_lines. rewrite E. exact F2.
Qed.
