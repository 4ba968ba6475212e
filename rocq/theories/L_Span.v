(** How often the callbacks of the block rasteriser count: the lengths x1 - x0 of the
    lines, negative for a line that runs backwards, and the areas of the blocks. *)
From Coq Require Import ZArith Reals List Bool Lia Lra Permutation.
From Flocq Require Import Core IEEE754.BinarySingleNaN.
From Verif Require Import GoNum FloatLemmas M_Norm M_Geom S_Geom M_Raster S_Raster L_Raster1 L_Raster2 L_Raster3.
Import ListNotations.
Open Scope Z_scope.

Definition counted (bs : Z) (e : event) : Z := match e with Line x0 x1 _ => x1 - x0 | Block _ _ => bs * bs end.
Definition count (bs : Z) (l : list event) : Z := fold_right (fun e s => counted bs e + s) 0 l.
Lemma count_app bs a b : count bs (a ++ b) = count bs a + count bs b.
Proof. unfold count. induction a as [|e a IH]; cbn [app fold_right]; lia. Qed.
Lemma count_lines bs bs' l : (forall e, In e l -> exists x0 x1 y, e = Line x0 x1 y) -> count bs l = count bs' l.
Proof.
  induction l as [|e l IH]; intros H; [reflexivity|]. cbn [count fold_right]. fold (count bs l) (count bs' l). rewrite IH by (intros x Hx; apply H; right; exact Hx).
  destruct (H e (or_introl eq_refl)) as (x0 & x1 & y & ->). reflexivity.
Qed.

(** Sums over rows. *)
Definition rsum (f : Z -> Z) (a b : Z) : Z := fold_right (fun y s => f y + s) 0 (zfor a b).
Lemma rsum_ext f g a b : (forall y, a <= y < b -> f y = g y) -> rsum f a b = rsum g a b.
Proof.
  intros H. unfold rsum. assert (K : forall l, (forall y, In y l -> f y = g y) -> fold_right (fun y s => f y + s) 0 l = fold_right (fun y s => g y + s) 0 l).
  { induction l as [|y l IH]; intros E; cbn [fold_right]; [reflexivity|]. rewrite (E y (or_introl eq_refl)), IH; [reflexivity|]. intros z Hz. apply E. right. exact Hz. }
  apply K. intros y Hy. apply H, zfor_In, Hy.
Qed.
Lemma rsum_nil f a b : b <= a -> rsum f a b = 0.
Proof. intros H. unfold rsum. rewrite zfor_nil by lia. reflexivity. Qed.
Lemma rsum_cons f a b : a < b -> rsum f a b = f a + rsum f (a + 1) b.
Proof. intros H. unfold rsum. rewrite zfor_cons by lia. reflexivity. Qed.
Lemma rsum_app f a m b : a <= m <= b -> rsum f a b = rsum f a m + rsum f m b.
Proof.
  intros H. unfold rsum. rewrite (zfor_app a m b H). generalize (zfor a m) (zfor m b). intros l k. induction l as [|y l IH]; cbn [app fold_right]; lia.
Qed.
Lemma rsum_plus f g a b : rsum (fun y => f y + g y) a b = rsum f a b + rsum g a b.
Proof. unfold rsum. induction (zfor a b) as [|y l IH]; cbn [fold_right]; lia. Qed.
Lemma rsum_const c a b : a <= b -> rsum (fun _ => c) a b = c * (b - a).
Proof.
  intros H. replace b with (a + Z.of_nat (Z.to_nat (b - a))) by lia. generalize (Z.to_nat (b - a)). clear b H. intros n. revert a. induction n as [|n IH]; intros a; [rewrite rsum_nil by lia; lia|].
  rewrite rsum_cons by lia. replace (a + Z.of_nat (S n)) with (a + 1 + Z.of_nat n) by lia. rewrite IH. lia.
Qed.
Lemma rsum_shift f a b c : rsum (fun y => f (y + c)) a b = rsum f (a + c) (b + c).
Proof. unfold rsum. rewrite <- zfor_shift. induction (zfor a b) as [|y l IH]; cbn [map fold_right]; lia. Qed.
Lemma rsum_rev f i n : rsum (fun k => f (i - k)) 0 n = rsum f (i - n + 1) (i + 1).
Proof.
  destruct (Z.le_gt_cases n 0) as [H|H]; [rewrite !rsum_nil by lia; reflexivity|].
  replace n with (Z.of_nat (Z.to_nat n)) by lia. generalize (Z.to_nat n). clear n H. intros n. revert i. induction n as [|n IH]; intros i; [rewrite !rsum_nil by lia; reflexivity|].
  rewrite rsum_cons by lia. rewrite Z.sub_0_r. rewrite (rsum_app f _ i) by lia. rewrite (rsum_cons f i), (rsum_nil f (i + 1)) by lia.
  replace (rsum (fun k => f (i - k)) (0 + 1) (Z.of_nat (S n))) with (rsum (fun k => f ((i - 1) - k)) 0 (Z.of_nat n)).
  - rewrite IH. replace (i - 1 + 1) with i by lia. replace (i - 1 - Z.of_nat n + 1) with (i - Z.of_nat (S n) + 1) by lia. lia.
  - rewrite (rsum_ext (fun k => f (i - 1 - k)) (fun k => f (i - (k + 1)))) by (intros; f_equal; lia).
    rewrite (rsum_shift (fun k => f (i - k)) 0 (Z.of_nat n) 1). f_equal. lia.
Qed.
Lemma count_map bs (F : Z -> event) a b : count bs (map F (zfor a b)) = rsum (fun y => counted bs (F y)) a b.
Proof. unfold rsum, count. induction (zfor a b) as [|y l IH]; cbn [map fold_right]; [reflexivity|]. rewrite IH. reflexivity. Qed.
Lemma count_rows bs (L R : Z -> Z) a b : count bs (map (fun i => Line (L i) (R i) i) (zfor a b)) = rsum (fun y => R y - L y) a b.
Proof. apply count_map. Qed.

Lemma block_run_count bs minX yb fuel : forall x l x', block_run fuel bs minX yb x = Some (l, x') -> count bs l = bs * (x' - x).
Proof.
  induction fuel as [|fuel IH]; intros x l x'; [discriminate|]. cbn [block_run]. destruct (flt _ _); [|intros [= <- <-]; cbn; lia].
  destruct (block_run fuel bs minX yb (x + bs)) as [[l' x'']|] eqn:E; [|discriminate]. intros [= <- <-]. apply IH in E. cbn [count fold_right counted]. fold (count bs l'). lia.
Qed.
Lemma up_blocks_count bs y2 m0 b0 m1 b1 fuel : 1 <= bs -> forall i l i', up_blocks fuel bs y2 m0 b0 m1 b1 i = Some (l, i') ->
  i' <= i /\ count bs l = rsum (fun y => go_int (lin m1 b1 (y - y2)) - go_int (lin m0 b0 (y - y2))) (i' + 1) (i + 1).
Proof.
  intros Hbs. induction fuel as [|fuel IH]; intros i l i'; [discriminate|]. cbn [up_blocks]. destruct (i >? y2); [|intros [= <- <-]; rewrite rsum_nil by lia; split; [lia|reflexivity]].
  destruct (fle _ _); [intros [= <- <-]; rewrite rsum_nil by lia; split; [lia|reflexivity]|].
  set (M := go_int (two_max _ _ _ _)). set (mX := two_min _ _ _ _).
  destruct (block_run (S fuel) bs mX (i - bs + 1) M) as [[mid x]|] eqn:Eb; [|discriminate].
  destruct (up_blocks fuel bs y2 m0 b0 m1 b1 (i - bs)) as [[rest j]|] eqn:Er; [|discriminate]. intros [= <- <-]. destruct (IH _ _ _ Er) as [J1 J2]. apply block_run_count in Eb.
  split; [lia|]. rewrite !count_app, J2, Eb, !count_map. cbn [counted].
  set (f := fun y => go_int (lin m1 b1 (y - y2)) - go_int (lin m0 b0 (y - y2))).
  rewrite (rsum_app f (j + 1) (i - bs + 1) (i + 1)) by lia. rewrite <- (rsum_rev f i bs).
  rewrite (rsum_ext (fun y => M - go_int (lin m0 b0 (i - y - y2))) (fun y => M + - go_int (lin m0 b0 (i - y - y2)))) by (intros; lia).
  rewrite (rsum_ext (fun y => go_int (lin m1 b1 (i - y - y2)) - x) (fun y => go_int (lin m1 b1 (i - y - y2)) + - x)) by (intros; lia).
  rewrite (rsum_ext (fun k => f (i - k)) (fun y => go_int (lin m1 b1 (i - y - y2)) + - go_int (lin m0 b0 (i - y - y2)))) by (intros; unfold f; lia).
  rewrite !rsum_plus, !rsum_const by lia. replace (i - bs + 1) with (i + 1 - bs) by lia. lia.
Qed.
Lemma down_blocks_count bs y0 y1 m0 b0 d0 m1 b1 d1 fuel : 1 <= bs -> forall i l i', down_blocks fuel bs y0 y1 m0 b0 d0 m1 b1 d1 i = Some (l, i') ->
  i <= i' /\ count bs l = rsum (fun y => go_int (lin m1 b1 (y - y1 + d1)) - go_int (lin m0 b0 (y - y1 + d0))) i i'.
Proof.
  intros Hbs. induction fuel as [|fuel IH]; intros i l i'; [discriminate|]. cbn [down_blocks]. destruct (i + bs <? y0); [|intros [= <- <-]; rewrite rsum_nil by lia; split; [lia|reflexivity]].
  destruct (fle _ _); [intros [= <- <-]; rewrite rsum_nil by lia; split; [lia|reflexivity]|].
  set (M := go_int (two_max _ _ _ _)). set (mX := two_min _ _ _ _).
  destruct (block_run (S fuel) bs mX i M) as [[mid x]|] eqn:Eb; [|discriminate].
  destruct (down_blocks fuel bs y0 y1 m0 b0 d0 m1 b1 d1 (i + bs)) as [[rest j]|] eqn:Er; [|discriminate]. intros [= <- <-]. destruct (IH _ _ _ Er) as [J1 J2]. apply block_run_count in Eb.
  split; [lia|]. rewrite !count_app, J2, Eb, !count_map. cbn [counted].
  set (f := fun y => go_int (lin m1 b1 (y - y1 + d1)) - go_int (lin m0 b0 (y - y1 + d0))).
  rewrite (rsum_app f i (i + bs) j) by lia.
  replace (rsum f i (i + bs)) with (rsum (fun k => f (k + i)) 0 bs) by (rewrite (rsum_shift f 0 bs i); f_equal; lia).
  rewrite (rsum_ext (fun y => M - go_int (lin m0 b0 (i + y - y1 + d0))) (fun y => M + - go_int (lin m0 b0 (i + y - y1 + d0)))) by (intros; lia).
  rewrite (rsum_ext (fun y => go_int (lin m1 b1 (i + y - y1 + d1)) - x) (fun y => go_int (lin m1 b1 (i + y - y1 + d1)) + - x)) by (intros; lia).
  rewrite (rsum_ext (fun k => f (k + i)) (fun y => go_int (lin m1 b1 (i + y - y1 + d1)) + - go_int (lin m0 b0 (i + y - y1 + d0)))) by (intros y _; unfold f; rewrite (Z.add_comm y i); lia).
  rewrite !rsum_plus, !rsum_const by lia. lia.
Qed.

Lemma up_count bs y1 y2 m0 b0 m1 fuel :
  1 <= bs <= 2 ^ 24 -> okm m0 -> okb b0 -> okm m1 -> (R64 m0 <= R64 m1)%R ->
  y2 < y1 <= y2 + 2 ^ 25 -> 2 ^ 56 <= Z.of_nat fuel ->
  exists l i, up_blocks fuel bs y2 m0 b0 m1 b0 (y1 - 1) = Some (l, i) /\
  count bs (l ++ up_rest y2 m0 b0 m1 b0 i) = rsum (fun y => go_int (lin m1 b0 (y - y2)) - go_int (lin m0 b0 (y - y2))) y2 y1.
Proof.
  intros Hbs Hm0 Hb0 Hm1 Hle Hy Hf.
  destruct (up_blocks_spec bs y2 m0 b0 m1 b0 Hbs Hm0 Hb0 Hm1 eq_refl Hle fuel (y1 - 1)) as (l & i & E & Hi & _); try lia.
  exists l, i. split; [exact E|]. apply up_blocks_count in E as [_ C]; [|lia]. rewrite count_app, C. unfold up_rest. rewrite count_map. cbn [counted].
  set (f := fun y => go_int (lin m1 b0 (y - y2)) - go_int (lin m0 b0 (y - y2))).
  change (rsum (fun y => go_int (lin m1 b0 (i - y - y2)) - go_int (lin m0 b0 (i - y - y2))) 0 (i - y2)) with (rsum (fun y => f (i - y)) 0 (i - y2)). rewrite rsum_rev.
  replace (y1 - 1 + 1) with y1 by lia. replace (i - (i - y2) + 1) with (y2 + 1) by lia.
  rewrite (rsum_cons f y2) by lia. replace (f y2) with 0 by (unfold f; rewrite Z.sub_diag, !go_int_lin, !linR_0 by (auto; lia); lia).
  rewrite (rsum_app f (y2 + 1) (i + 1) y1) by lia. lia.
Qed.
Lemma down_count bs y0 y1 m0 b0 d0 m1 b1 d1 fuel :
  1 <= bs <= 2 ^ 24 -> okm m0 -> okb b0 -> okm m1 -> okb b1 ->
  0 <= d0 <= 2 ^ 25 -> 0 <= d1 <= 2 ^ 25 -> y1 <= y0 <= y1 + 2 ^ 25 -> 2 ^ 56 <= Z.of_nat fuel ->
  exists l i, down_blocks fuel bs y0 y1 m0 b0 d0 m1 b1 d1 y1 = Some (l, i) /\
  count bs (l ++ down_rest y0 y1 m0 b0 d0 m1 b1 d1 i) = rsum (fun y => go_int (lin m1 b1 (y - y1 + d1)) - go_int (lin m0 b0 (y - y1 + d0))) y1 y0.
Proof.
  intros Hbs Hm0 Hb0 Hm1 Hb1 Hd0 Hd1 Hy Hf.
  destruct (down_blocks_spec bs y0 y1 m0 b0 d0 m1 b1 d1 Hbs Hm0 Hb0 Hm1 Hb1 Hd0 Hd1 ltac:(lia) fuel y1) as (l & i & E & Hi & _); try lia.
  exists l, i. split; [exact E|]. apply down_blocks_count in E as [_ C]; [|lia]. rewrite count_app, C. unfold down_rest. rewrite count_map. cbn [counted].
  rewrite <- rsum_app by lia. reflexivity.
Qed.

Lemma blocks_count fuel bs p0 p1 p2 :
  1 <= bs <= 2 ^ 24 -> 2 ^ 56 <= Z.of_nat fuel ->
  (Z.abs (px p0) <= 2 ^ 24 /\ Z.abs (py p0) <= 2 ^ 24) /\ (Z.abs (px p1) <= 2 ^ 24 /\ Z.abs (py p1) <= 2 ^ 24) /\
  (Z.abs (px p2) <= 2 ^ 24 /\ Z.abs (py p2) <= 2 ^ 24) -> py p2 <= py p1 <= py p0 ->
  exists ev, blocks_of fuel p0 p1 p2 bs = Some ev /\ count bs ev = count bs (lines_of p0 p1 p2).
Proof.
  destruct p0 as [x0 y0], p1 as [x1 y1], p2 as [x2 y2]. cbn [px py]. intros Hbs Hf HB HS.
  assert (Hf1 : (1 <= fuel)%nat) by lia.
  unfold blocks_of, normal_triangle_blocks, lines_of. cbn [px py]. cbv zeta.
  destruct (Z.eqb_spec y1 y2) as [E12|N12].
  - (* y1 = y2 *)
    subst y2.
    destruct (Z.eq_dec y0 y1) as [->|N01].
    + (* all equal: nothing is drawn *)
      set (T := if x2 <? x1 then (x2, x1) else (x1, x2)). destruct T as [xa xb].
      unfold bottom_triangle_lines, flat_triangle_lines, fill_triangle_lines. rewrite (zfor_nil y1 y1) by lia. cbn [map].
      destruct (flt _ _); cbn iota beta; rewrite (up_none fuel bs y1 _ _ _ _ (y1 - 1)) by lia; rewrite up_rest_none by lia;
      (destruct (flt (f64_of_Z x1) (f64_of_Z x2)); destruct (flt _ _);
        rewrite down_none, down_rest_none by lia; eexists; (split; [reflexivity|]); reflexivity).
    + set (A := slope (x1 - x0) (y1 - y0)). set (B := slope (x2 - x0) (y1 - y0)).
      assert (HA : okm A) by (apply okm_slope; lia). assert (HBm : okm B) by (apply okm_slope; lia).
      assert (Hx1 : okb (f64_of_Z x1)) by (apply okb_Z; lia). assert (Hx2 : okb (f64_of_Z x2)) by (apply okb_Z; lia).
      assert (G : forall (l r : Z) (ml mr ml' mr' : f64), okm ml -> okm mr -> okm ml' -> okm mr' -> R64 ml = R64 ml' -> R64 mr = R64 mr' ->
        okb (f64_of_Z l) -> okb (f64_of_Z r) ->
        exists ev, match down_blocks fuel bs y0 y1 ml (f64_of_Z l) 0 mr (f64_of_Z r) 0 y1 with
          | Some (e3, i) => Some ([] ++ [] ++ e3 ++ down_rest y0 y1 ml (f64_of_Z l) 0 mr (f64_of_Z r) 0 i)
          | None => None end = Some ev /\
          count bs ev = count bs (fill_triangle_lines y1 y0 (f64_of_Z l) (f64_of_Z r) ml' mr')).
      { intros l r ml mr ml' mr' H1 H2 H3 H4 H5 H6 H7 H8.
        destruct (down_count bs y0 y1 ml (f64_of_Z l) 0 mr (f64_of_Z r) 0 fuel) as (e & i & E & C); auto; try lia.
        rewrite E. eexists. split; [reflexivity|]. cbn [app]. rewrite C.
        unfold fill_triangle_lines.
        rewrite (count_rows bs (fun i => go_int (lin ml' (f64_of_Z l) (i - y1))) (fun i => go_int (lin mr' (f64_of_Z r) (i - y1)))).
        apply rsum_ext. intros y Hy. rewrite (lin_same ml ml'), (lin_same mr mr') by (auto; lia). rewrite Z.add_0_r. reflexivity. }
      rewrite Z.sub_diag.
      assert (LR : (R64 (f64_of_Z x1) = IZR x1)%R) by (apply of_Z_val; lia).
      assert (LR2 : (R64 (f64_of_Z x2) = IZR x2)%R) by (apply of_Z_val; lia).
      unfold bottom_triangle_lines, flat_triangle_lines.
      assert (FL : flt (f64_of_Z x1) (f64_of_Z x2) = (x1 <? x2)).
      { rewrite flt_R by (apply Hx1 || apply Hx2). rewrite LR, LR2. destruct (Z.ltb_spec x1 x2).
        - apply Rlt_bool_true. apply IZR_lt; lia.
        - apply Rlt_bool_false. apply IZR_le; lia. }
      assert (FA : flt A B = Rlt_bool (R64 A) (R64 B)) by (apply flt_R; [apply HA|apply HBm]).
      assert (FB : flt B A = Rlt_bool (R64 B) (R64 A)) by (apply flt_R; [apply HA || apply HBm|apply HA]).
      destruct (flt (slope (x2 - x1) 0) B); cbn iota beta; rewrite (up_none fuel bs y1 _ _ _ _ (y1 - 1)) by lia;
        rewrite up_rest_none by lia; rewrite FL; clear FL.
      * (* swap: the pair is (A, B) *)
        fold A. rewrite FA.
        destruct (Z.ltb_spec x1 x2) as [Hlt|Hge].
        -- destruct (Z.ltb_spec x2 x1); [lia|].
           assert (M : (R64 B <= R64 A)%R) by (apply slope_mono; lia).
           destruct (Rlt_bool_spec (R64 A) (R64 B)); [lra|]. apply G; auto.
        -- assert (M : (R64 A <= R64 B)%R) by (apply slope_mono; lia).
           destruct (Z.ltb_spec x2 x1).
           ++ destruct (Rlt_bool_spec (R64 A) (R64 B)); apply G; auto; fold A B; lra.
           ++ assert (x1 = x2) by lia. subst x2. destruct (Rlt_bool_spec (R64 A) (R64 B)); apply G; auto.
      * fold A. rewrite FB.
        destruct (Z.ltb_spec x1 x2) as [Hlt|Hge].
        -- destruct (Z.ltb_spec x2 x1); [lia|].
           assert (M : (R64 B <= R64 A)%R) by (apply slope_mono; lia).
           destruct (Rlt_bool_spec (R64 B) (R64 A)); apply G; auto; fold A B; lra.
        -- assert (M : (R64 A <= R64 B)%R) by (apply slope_mono; lia).
           destruct (Z.ltb_spec x2 x1).
           ++ destruct (Rlt_bool_spec (R64 B) (R64 A)); [lra|]. apply G; auto.
           ++ assert (x1 = x2) by lia. subst x2. destruct (Rlt_bool_spec (R64 B) (R64 A)); apply G; auto.
  - (* y2 < y1 *)
    set (m0 := slope (x2 - x0) (y2 - y0)). set (m1 := slope (x2 - x1) (y2 - y1)).
    assert (H0 : okm m0) by (apply okm_slope; lia). assert (H1 : okm m1) by (apply okm_slope; lia).
    assert (Hx1 : okb (f64_of_Z x1)) by (apply okb_Z; lia). assert (Hx2 : okb (f64_of_Z x2)) by (apply okb_Z; lia).
    assert (FS : flt m1 m0 = Rlt_bool (R64 m1) (R64 m0)) by (apply flt_R; [apply H1|apply H0]).
    destruct (Z.eqb_spec y0 y1) as [E01|N01].
    + subst y1.
      assert (G : forall ml mr ml' mr', okm ml -> okm mr -> okm ml' -> okm mr' -> R64 ml = R64 ml' -> R64 mr = R64 mr' -> (R64 ml <= R64 mr)%R ->
        forall (k : Z -> list event), (forall i, k i = up_rest y2 ml (f64_of_Z x2) mr (f64_of_Z x2) i) ->
        exists ev, match up_blocks fuel bs y2 ml (f64_of_Z x2) mr (f64_of_Z x2) (y0 - 1) with
          | Some (e1, i) => Some (e1 ++ k i ++ [] ++ []) | None => None end = Some ev /\
        count bs ev = count bs (fill_triangle_lines y2 y0 (f64_of_Z x2) (f64_of_Z x2) ml' mr')).
      { intros ml mr ml' mr' Q1 Q2 Q3 Q4 Q5 Q6 Q7 k Hk.
        destruct (up_count bs y0 y2 ml (f64_of_Z x2) mr fuel) as (e & i & E & C); auto; try lia.
        rewrite E. eexists. split; [reflexivity|]. rewrite Hk. cbn [app]. rewrite app_nil_r, C.
        unfold fill_triangle_lines.
        rewrite (count_rows bs (fun i => go_int (lin ml' (f64_of_Z x2) (i - y2))) (fun i => go_int (lin mr' (f64_of_Z x2) (i - y2)))).
        apply rsum_ext. intros y Hy. rewrite (lin_same ml ml'), (lin_same mr mr') by (auto; lia). reflexivity. }
      unfold top_triangle_lines, flat_triangle_lines. rewrite Z.gtb_ltb.
      destruct (flt m1 m0); cbn iota beta.
      * (* swap *)
        destruct (Rlt_bool_spec (R64 m1) (R64 m0)) as [Hlt|]; [|discriminate].
        destruct (Z.ltb_spec x1 x0) as [L|L].
        -- destruct (G m1 m0 m1 m0 H1 H0 H1 H0 eq_refl eq_refl ltac:(lra) (fun i => up_rest y2 m1 (f64_of_Z x2) m0 (f64_of_Z x2) i) ltac:(reflexivity)) as (ev & E & C).
           destruct (up_blocks _ _ _ _ _ _ _ _) as [[e1 i]|]; [|discriminate].
           rewrite down_none, down_rest_none by lia. exists ev. split; [exact E|exact C].
        -- assert (M : (R64 m0 <= R64 m1)%R) by (apply slope_mono; lia). lra.
      * destruct (Rlt_bool_spec (R64 m1) (R64 m0)) as [|Hge]; [discriminate|].
        destruct (Z.ltb_spec x1 x0) as [L|L].
        -- assert (M : (R64 m1 <= R64 m0)%R) by (apply slope_mono; lia).
           destruct (G m0 m1 m1 m0 H0 H1 H1 H0 ltac:(lra) ltac:(lra) ltac:(lra) (fun i => up_rest y2 m0 (f64_of_Z x2) m1 (f64_of_Z x2) i) ltac:(reflexivity)) as (ev & E & C).
           destruct (up_blocks _ _ _ _ _ _ _ _) as [[e1 i]|]; [|discriminate].
           rewrite down_none, down_rest_none by lia. exists ev. split; [exact E|exact C].
        -- destruct (G m0 m1 m0 m1 H0 H1 H0 H1 eq_refl eq_refl Hge (fun i => up_rest y2 m0 (f64_of_Z x2) m1 (f64_of_Z x2) i) ltac:(reflexivity)) as (ev & E & C).
           destruct (up_blocks _ _ _ _ _ _ _ _) as [[e1 i]|]; [|discriminate].
           rewrite down_none, down_rest_none by lia. exists ev. split; [exact E|exact C].
    + (* three different heights *)
      unfold normal_triangle_lines. cbv zeta. fold m0 m1.
      set (m2 := slope (x1 - x0) (y1 - y0)). assert (H2 : okm m2) by (apply okm_slope; lia).
      destruct (flt m1 m0) eqn:ES; cbn iota beta.
      * destruct (Rlt_bool_spec (R64 m1) (R64 m0)) as [Hlt|]; [|discriminate].
        destruct (up_count bs y1 y2 m1 (f64_of_Z x2) m0 fuel) as (e & i & E & C); auto; try lia; try lra.
        rewrite E.
        destruct (down_count bs y0 y1 m2 (f64_of_Z x1) 0 m0 (f64_of_Z x2) (y1 - y2) fuel) as (e' & i' & E' & C'); auto; try lia.
        rewrite E'. eexists. split; [reflexivity|]. rewrite app_assoc, (count_app _ (e ++ _)), C, C'.
        rewrite count_app.
        rewrite (count_rows bs (fun i => go_int (lin m1 (f64_of_Z x2) (i - y2))) (fun i => go_int (lin m0 (f64_of_Z x2) (i - y2)))).
        rewrite (count_rows bs (fun i => go_int (lin m2 (f64_of_Z x1) (i - y1 + 0))) (fun i => go_int (lin m0 (f64_of_Z x2) (i - y1 + (y1 - y2))))).
        reflexivity.
      * destruct (Rlt_bool_spec (R64 m1) (R64 m0)) as [|Hge]; [discriminate|].
        destruct (up_count bs y1 y2 m0 (f64_of_Z x2) m1 fuel) as (e & i & E & C); auto; try lia; try lra.
        rewrite E.
        destruct (down_count bs y0 y1 m0 (f64_of_Z x2) (y1 - y2) m2 (f64_of_Z x1) 0 fuel) as (e' & i' & E' & C'); auto; try lia.
        rewrite E'. eexists. split; [reflexivity|]. rewrite app_assoc, (count_app _ (e ++ _)), C, C'.
        rewrite count_app.
        rewrite (count_rows bs (fun i => go_int (lin m0 (f64_of_Z x2) (i - y2))) (fun i => go_int (lin m1 (f64_of_Z x2) (i - y2)))).
        rewrite (count_rows bs (fun i => go_int (lin m0 (f64_of_Z x2) (i - y1 + (y1 - y2)))) (fun i => go_int (lin m2 (f64_of_Z x1) (i - y1 + 0)))).
        reflexivity.
Qed.

(** The count is that of the lines of the line rasteriser. *)
Lemma dda_blocks_count fuel t bs ev : 1 <= bs <= 2 ^ 24 -> in_box 24 t -> dda_blocks fuel t bs = Some ev -> count bs ev = count bs (dda_lines t).
Proof.
  intros Hbs HB Ev. set (big := (fuel + Z.to_nat (2 ^ 56))%nat). assert (Hbig : 2 ^ 56 <= Z.of_nat big) by (unfold big; lia).
  assert (Ev' : dda_blocks big t bs = Some ev) by (apply (dda_blocks_more fuel big); [unfold big; lia|exact Ev]).
  unfold dda_blocks in Ev'. unfold dda_lines. destruct (sort_vertices t) as [[p0 p1] p2] eqn:E.
  destruct (sort_vertices_spec _ _ _ _ E) as [S _]. pose proof (in_box_sorted _ _ _ _ _ HB E) as B.
  destruct (blocks_count big bs p0 p1 p2 Hbs Hbig B S) as (ev' & Ev2 & C). unfold blocks_of in Ev2. rewrite Ev2 in Ev'. injection Ev' as <-. exact C.
Qed.
