From Coq Require Import ZArith Reals List Bool Lia Lra.
From Flocq Require Import Core IEEE754.BinarySingleNaN.
From Verif Require Import GoNum FloatLemmas M_Norm S_Norm L_Norm M_Image S_Image.
Import ListNotations.
Open Scope Z_scope.

(* ---------------- lists ---------------- *)
Lemma zrange_length n : length (zrange n) = Z.to_nat n.
Proof. unfold zrange. now rewrite map_length, seq_length. Qed.
Lemma zrange_nth n i : nth_error (zrange n) i = if (i <? Z.to_nat n)%nat then Some (Z.of_nat i) else None.
Proof.
  unfold zrange. destruct (Nat.ltb_spec i (Z.to_nat n)).
  - rewrite nth_error_map, (nth_error_nth' _ 0%nat) by (rewrite seq_length; lia).
    rewrite seq_nth by lia. reflexivity.
  - apply nth_error_None. rewrite map_length, seq_length. lia.
Qed.
Lemma znth_zrange n i : 0 <= i < n -> znth (zrange n) i = Some i.
Proof.
  intros H. unfold znth. destruct (Z.ltb_spec i 0); [lia|]. rewrite zrange_nth.
  destruct (Nat.ltb_spec (Z.to_nat i) (Z.to_nat n)); [|lia]. f_equal. lia.
Qed.
Lemma zrange_In n i : In i (zrange n) <-> 0 <= i < n.
Proof.
  unfold zrange. rewrite in_map_iff. split.
  - intros (k & <- & H). apply in_seq in H. lia.
  - intros H. exists (Z.to_nat i). split; [lia|]. apply in_seq. lia.
Qed.
Lemma znth_map {A B} (f : A -> B) l i : znth (map f l) i = option_map f (znth l i).
Proof. unfold znth. destruct (i <? 0); [reflexivity|]. apply nth_error_map. Qed.
Lemma znth_Some {A} (l : list A) i : 0 <= i < Z.of_nat (length l) <-> znth l i <> None.
Proof.
  unfold znth. destruct (Z.ltb_spec i 0); [split; [lia|congruence]|].
  rewrite nth_error_Some. lia.
Qed.
Lemma znth_None {A} (l : list A) i : i < 0 \/ Z.of_nat (length l) <= i -> znth l i = None.
Proof.
  intros H. unfold znth. destruct (Z.ltb_spec i 0); [reflexivity|]. apply nth_error_None. lia.
Qed.
Lemma zrange_S n : 0 <= n -> zrange (n + 1) = zrange n ++ [n].
Proof.
  intros H. unfold zrange. replace (Z.to_nat (n + 1)) with (S (Z.to_nat n)) by lia.
  rewrite seq_S, map_app. cbn. do 2 f_equal. lia.
Qed.

Lemma mapM_Some {A B} (f : A -> option B) l : (forall a, In a l -> f a <> None) -> exists bs, mapM f l = Some bs.
Proof.
  induction l as [|a l IH]; intros H; [exists []; reflexivity|]. cbn.
  destruct (f a) eqn:E; [|elim (H a); [now left|exact E]].
  destruct IH as [bs ->]; [intros; apply H; now right|]. eauto.
Qed.
Lemma mapM_length {A B} (f : A -> option B) l bs : mapM f l = Some bs -> length bs = length l.
Proof.
  revert bs; induction l as [|a l IH]; intros bs H; cbn in H; [injection H as <-; reflexivity|].
  destruct (f a); [|discriminate]. destruct (mapM f l); [|discriminate]. injection H as <-. cbn. f_equal. auto.
Qed.
Lemma mapM_nth {A B} (f : A -> option B) l bs i : mapM f l = Some bs ->
  nth_error bs i = match nth_error l i with Some a => f a | None => None end.
Proof.
  revert bs i; induction l as [|a l IH]; intros bs i H; cbn in H; [injection H as <-; now destruct i|].
  destruct (f a) eqn:E; [|discriminate]. destruct (mapM f l) eqn:M; [|discriminate]. injection H as <-.
  destruct i; cbn; [now rewrite E|]. apply IH. reflexivity.
Qed.
Lemma mapM_znth {A B} (f : A -> option B) l bs i : mapM f l = Some bs ->
  znth bs i = match znth l i with Some a => f a | None => None end.
Proof. intros H. unfold znth. destruct (i <? 0); [reflexivity|]. now apply mapM_nth. Qed.

(* ---------------- C10 ---------------- *)
Open Scope R_scope.

Definition sums_ok (k : Z) (v : f64) : Prop := fin v /\ 0 <= R64 v <= IZR k.

Lemma sums_step k v c : (0 <= k < 2 ^ 53)%Z -> sums_ok k v -> in_unit c -> sums_ok (k + 1) (fadd v c).
Proof.
  intros Hk [Fv [V0 V1]] [Fc [C0 C1]].
  assert (B : 0 <= R64 v + R64 c <= IZR (k + 1)) by (rewrite plus_IZR; lra).
  destruct (fadd_R v c Fv Fc) as [F E].
  - rewrite Rabs_pos_eq by lra. eapply Rle_trans; [apply B|]. eapply Rle_trans with (bpow radix2 53).
    + rewrite bpow_IZR by lia. apply IZR_le. lia.
    + apply bpow_le; lia.
  - split; [exact F|]. rewrite E. split.
    + rewrite <- rnd_0. apply rnd_le. lra.
    + rewrite <- (rnd_Z (k + 1)) by lia. apply rnd_le. lra.
Qed.

Lemma avg_fold l : forall a k, (0 <= k)%Z -> a_count a = k -> (k + Z.of_nat (length l) < 2 ^ 53)%Z ->
  sums_ok k (cr (a_rgb a)) -> sums_ok k (cg (a_rgb a)) -> sums_ok k (cb (a_rgb a)) -> Forall rgb_unit l ->
  let a' := fold_left avg_add l a in let n := (k + Z.of_nat (length l))%Z in
  a_count a' = n /\ sums_ok n (cr (a_rgb a')) /\ sums_ok n (cg (a_rgb a')) /\ sums_ok n (cb (a_rgb a')).
Proof.
  induction l as [|c l IH]; intros a k Hk Ha Hn S1 S2 S3 F; cbv zeta.
  - cbn [fold_left length]. rewrite Z.add_0_r. auto.
  - inversion F as [|? ? [H1 [H2 H3]] F']; subst. cbn [fold_left length] in *.
    replace (a_count a + Z.of_nat (S (length l)))%Z with ((a_count a + 1) + Z.of_nat (length l))%Z by lia.
    apply IH; try lia; try assumption; cbn [avg_add a_rgb a_count cr cg cb]; try (apply sums_step; [lia|assumption|assumption]).
    unfold u64, wrapu. apply Z.mod_small. lia.
Qed.

Lemma sum_div n v : (1 <= n < 2 ^ 53)%Z -> sums_ok n v -> in_unit (fdiv v (f64_of_Z n)).
Proof.
  intros Hn [F [V0 V1]]. destruct (of_Z_R n ltac:(lia)) as [Fn En].
  assert (P : 1 <= IZR n) by (apply IZR_le; lia).
  assert (Q : 0 <= R64 v / IZR n <= 1).
  { split; [apply Rmult_le_pos; [lra|]; left; apply Rinv_0_lt_compat; lra|].
    apply Rmult_le_reg_r with (IZR n); [lra|]. unfold Rdiv. rewrite Rmult_assoc, Rinv_l by lra. lra. }
  destruct (fdiv_R v (f64_of_Z n) F Fn) as [Fd Ed].
  - rewrite En. lra.
  - rewrite En, Rabs_pos_eq by lra. eapply Rle_trans with (bpow radix2 0); [change (bpow radix2 0) with 1; lra|apply bpow_le; lia].
  - split; [exact Fd|]. rewrite Ed, En. split.
    + rewrite <- rnd_0. apply rnd_le. lra.
    + replace 1 with (rnd 1) by (apply (rnd_Z 1); lia). apply rnd_le. lra.
Qed.

Lemma average_ok l : (1 <= Z.of_nat (length l) < 2 ^ 53)%Z -> Forall rgb_unit l ->
  let a := fold_left avg_add l avg0 in
  a_count a = Z.of_nat (length l) /\ rgb_unit (avg_average a).
Proof.
  intros Hn F. cbv zeta.
  assert (S0 : sums_ok 0 f0) by (split; [reflexivity|]; rewrite f0_R; lra).
  destruct (avg_fold l avg0 0 ltac:(lia) eq_refl ltac:(lia) S0 S0 S0 F) as (A & B & C & D).
  rewrite Z.add_0_l in *. split; [exact A|].
  unfold rgb_unit, avg_average. cbv zeta. cbn [cr cg cb]. rewrite A. auto using sum_div.
Qed.

(* ---------------- C11 ---------------- *)
Open Scope Z_scope.

Lemma convert_unit c : 0 <= c < 65536 ->
  in_unit (convert_color c) /\ B2R (convert_color c) = rnd (IZR (c / 256) / 255).
Proof.
  intros Hc. unfold convert_color. rewrite Z.shiftr_div_pow2 by lia. change (2 ^ 8) with 256.
  assert (Hk : 0 <= c / 256 <= 255).
  { split; [apply Z.div_pos; lia|]. apply Z.lt_succ_r. apply Z.div_lt_upper_bound; lia. }
  destruct (of_Z_R (c / 256) ltac:(lia)) as [F E]. split.
  - apply sum_div; [lia|]. split; [exact F|]. rewrite E. split; apply IZR_le; lia.
  - destruct (of_Z_R 255 ltac:(lia)) as [F2 E2].
    assert (0 <= IZR (c / 256) <= 255)%R by (split; apply IZR_le; lia).
    destruct (fdiv_R _ _ F F2) as [_ Ed].
    + rewrite E2. lra.
    + rewrite E, E2, Rabs_pos_eq by lra. eapply Rle_trans with (bpow radix2 0); [change (bpow radix2 0) with 1%R; lra|apply bpow_le; lia].
    + rewrite Ed, E, E2. reflexivity.
Qed.

Lemma to_data_at im d x y : to_data im = Some d ->
  rgb_at d x y = if (0 <=? x) && (x <? g_maxx im) && (0 <=? y) && (y <? g_maxy im)
                 then Some (let '(r, g, b) := g_at im x y in RGB (convert_color r) (convert_color g) (convert_color b))
                 else None.
Proof.
  unfold to_data. destruct (_ || _) eqn:C; [discriminate|]. intros H. injection H as <-.
  apply orb_false_iff in C. destruct C as [C _]. apply Z.ltb_ge in C.
  unfold rgb_at. cbn [d_px]. rewrite znth_map.
  destruct (Z.leb_spec 0 y); [destruct (Z.ltb_spec y (g_maxy im))|]; rewrite ?andb_false_r; cbn [andb].
  - rewrite znth_zrange by lia. cbn [option_map]. rewrite znth_map.
    destruct (Z.leb_spec 0 x); [destruct (Z.ltb_spec x (g_maxx im))|]; cbn [andb].
    + rewrite znth_zrange by lia. reflexivity.
    + rewrite znth_None by (rewrite zrange_length; lia). reflexivity.
    + rewrite znth_None by (rewrite zrange_length; lia). reflexivity.
  - rewrite znth_None by (rewrite zrange_length; lia). reflexivity.
  - rewrite znth_None by (rewrite zrange_length; lia). reflexivity.
Qed.

(** Channels reported by a conforming image are 16-bit. *)
Definition conforming (im : goimage) : Prop :=
  forall x y, let '(r, g, b) := g_at im x y in
    0 <= r < 65536 /\ 0 <= g < 65536 /\ 0 <= b < 65536.

Lemma to_data_spec im : 0 <= g_maxx im -> 0 <= g_maxy im -> conforming im ->
  exists d, to_data im = Some d /\ d_w d = g_maxx im /\ d_h d = g_maxy im /\
  (forall x y, ~ (0 <= x < g_maxx im /\ 0 <= y < g_maxy im) -> rgb_at d x y = None) /\
  (forall x y, 0 <= x < g_maxx im -> 0 <= y < g_maxy im ->
     exists c, rgb_at d x y = Some c /\ rgb_unit c /\
       let '(r, g, b) := g_at im x y in
       B2R (cr c) = rnd (IZR (r / 256) / 255) /\ B2R (cg c) = rnd (IZR (g / 256) / 255) /\
       B2R (cb c) = rnd (IZR (b / 256) / 255)).
Proof.
  intros Hx Hy Hc. destruct (to_data im) as [d|] eqn:E.
  - exists d. split; [reflexivity|]. pose proof (to_data_at im d) as AT.
    assert (W : d_w d = g_maxx im /\ d_h d = g_maxy im).
    { unfold to_data in E. destruct (_ || _); [discriminate|]. injection E as <-. auto. }
    destruct W as [W1 W2]. split; [exact W1|]. split; [exact W2|]. split.
    + intros x y Hn. rewrite AT by exact E.
      destruct (Z.leb_spec 0 x), (Z.ltb_spec x (g_maxx im)), (Z.leb_spec 0 y), (Z.ltb_spec y (g_maxy im)); try reflexivity; lia.
    + intros x y H1 H2. rewrite AT by exact E.
      destruct (Z.leb_spec 0 x), (Z.ltb_spec x (g_maxx im)), (Z.leb_spec 0 y), (Z.ltb_spec y (g_maxy im)); try lia. cbn [andb].
      eexists. split; [reflexivity|]. specialize (Hc x y). destruct (g_at im x y) as [[r g] b].
      destruct Hc as (R & G & B). destruct (convert_unit r R), (convert_unit g G), (convert_unit b B).
      unfold rgb_unit. cbn [cr cg cb]. auto 10.
  - exfalso. unfold to_data in E. destruct (_ || _) eqn:C; [|discriminate].
    apply orb_true_iff in C. rewrite andb_true_iff, !Z.ltb_lt in C. lia.
Qed.

(* ---------------- C12 / C13 ---------------- *)

Definition chan (k : Z) : f64 := fdiv (f64_of_Z k) (f64_of_Z 255).

Definition chan_check (k : Z) : bool :=
  let t := fmul (fmul (fmul (chan k) (f64_of_Z 255)) (chan k)) (f64_of_Z 255) in
  (go_u8 (fmul (chan k) (f64_of_Z 255)) =? k) &&
  is_finite t &&
  fle (f64_dy (k * k * 2 ^ 30 - 1) (-30)) t && fle t (f64_dy (k * k * 2 ^ 30 + 1) (-30)).

Lemma chan_sweep : forallb chan_check (zrange 256) = true.
Proof. vm_compute. reflexivity. Qed.

Lemma chan_ok k : 0 <= k < 256 -> chan_check k = true.
Proof. intros H. apply (proj1 (forallb_forall _ _) chan_sweep). apply zrange_In. exact H. Qed.

Lemma chan_u8 k : 0 <= k < 256 -> go_u8 (fmul (chan k) (f64_of_Z 255)) = k.
Proof. intros H. pose proof (chan_ok k H) as C. unfold chan_check in C. rewrite !andb_true_iff in C. apply Z.eqb_eq, C. Qed.

Definition sq_term (v : f64) : f64 := fmul (fmul (fmul v (f64_of_Z 255)) v) (f64_of_Z 255).

Lemma dy30 z : Z.abs z <= 2 ^ 53 ->
  fin (f64_dy z (-30)) /\ R64 (f64_dy z (-30)) = (IZR z * bpow radix2 (-30))%R.
Proof.
  intros H. destruct (f64_dy_R z (-30)) as [F E].
  - rewrite Rabs_mult, (Rabs_pos_eq (bpow _ _)) by apply bpow_ge_0. rewrite <- abs_IZR.
    eapply Rle_trans with (bpow radix2 53 * bpow radix2 (-30))%R.
    + apply Rmult_le_compat_r; [apply bpow_ge_0|]. rewrite (bpow_IZR 53) by lia. apply IZR_le, H.
    + rewrite <- bpow_plus. apply bpow_le; lia.
  - split; [exact F|]. rewrite E. apply rnd_dy; lia.
Qed.

Lemma chan_sq k : 0 <= k < 256 ->
  fin (sq_term (chan k)) /\ (Rabs (R64 (sq_term (chan k)) - IZR (k * k)) <= bpow radix2 (-30))%R.
Proof.
  intros H. pose proof (chan_ok k H) as C. unfold chan_check in C. cbv zeta in C.
  rewrite !andb_true_iff in C. destruct C as [[[_ F] L] U].
  fold (sq_term (chan k)) in *. split; [exact F|].
  assert (Hkk : 0 <= k * k <= 65025) by nia.
  destruct (dy30 (k * k * 2 ^ 30 - 1)) as [F1 E1]; [change (2 ^ 30) with 1073741824; lia|].
  destruct (dy30 (k * k * 2 ^ 30 + 1)) as [F2 E2]; [change (2 ^ 30) with 1073741824; lia|].
  rewrite fle_R in L, U by assumption. rewrite E1 in L. rewrite E2 in U.
  destruct (Rle_bool_spec (IZR (k * k * 2 ^ 30 - 1) * bpow radix2 (-30)) (R64 (sq_term (chan k)))) as [L'|]; [|discriminate].
  destruct (Rle_bool_spec (R64 (sq_term (chan k))) (IZR (k * k * 2 ^ 30 + 1) * bpow radix2 (-30))) as [U'|]; [|discriminate].
  rewrite minus_IZR, mult_IZR, <- (bpow_IZR 30) in L' by lia. rewrite plus_IZR, mult_IZR, <- (bpow_IZR 30) in U' by lia.
  rewrite Rmult_minus_distr_r, Rmult_assoc, <- bpow_plus in L'. rewrite Rmult_plus_distr_r, Rmult_assoc, <- bpow_plus in U'.
  change (bpow radix2 (30 + -30)) with 1%R in *. apply Rabs_le. lra.
Qed.

Lemma b30 : (0 < bpow radix2 (-30) < / 1000)%R.
Proof. split; [apply bpow_gt_0|]. 
  apply Rlt_le_trans with (bpow radix2 (-10)); [apply bpow_lt; lia|].
  change (bpow radix2 (-10)) with (/ 1024)%R. lra. Qed.

Lemma Ztrunc_range v a b : (IZR a <= v <= IZR b)%R -> a <= Ztrunc v <= b.
Proof. intros [H1 H2]. apply Ztrunc_le in H1, H2. rewrite Ztrunc_IZR in H1, H2. lia. Qed.

Lemma Ztrunc_near v z : 0 <= z -> (- / 2 < v - IZR z < 1)%R -> Ztrunc v = z \/ Ztrunc v = z - 1.
Proof.
  intros Hz [H1 H2]. destruct (Rle_lt_dec 0 v) as [P|P].
  - rewrite Ztrunc_floor by exact P. destruct (Rle_lt_dec (IZR z) v).
    + left. apply Zfloor_imp. rewrite plus_IZR. lra.
    + right. apply Zfloor_imp. rewrite plus_IZR, minus_IZR. lra.
  - left. assert (z = 0).
    { assert (IZR z < 1)%R by lra. apply lt_IZR in H. lia. }
    subst. rewrite Ztrunc_ceil by lra. apply Zceil_imp. rewrite minus_IZR. lra.
Qed.

Lemma sq_expr_ok r g b : 0 <= r < 256 -> 0 <= g < 256 -> 0 <= b < 256 ->
  let s := r * r + g * g + b * b in
  let z := go_u32 (sq_expr (RGB (chan r) (chan g) (chan b))) in
  z = s \/ z = s - 1.
Proof.
  intros Hr Hg Hb. cbv zeta.
  destruct (chan_sq r Hr) as [Fr Er]. destruct (chan_sq g Hg) as [Fg Eg]. destruct (chan_sq b Hb) as [Fb Eb].
  unfold sq_expr. cbn [cr cg cb]. fold (sq_term (chan r)) (sq_term (chan g)) (sq_term (chan b)).
  pose proof b30 as T.
  assert (Br : (0 <= IZR (r * r) <= 65025)%R) by (split; apply IZR_le; nia).
  assert (Bg : (0 <= IZR (g * g) <= 65025)%R) by (split; apply IZR_le; nia).
  assert (Bb : (0 <= IZR (b * b) <= 65025)%R) by (split; apply IZR_le; nia).
  assert (B18 : bpow radix2 18 = 262144%R) by reflexivity.
  apply Rabs_le_inv in Er, Eg, Eb.
  assert (A1 : (Rabs (R64 (sq_term (chan r)) + R64 (sq_term (chan g))) <= bpow radix2 18)%R).
  { rewrite B18. apply Rabs_le. lra. }
  destruct (fadd_R _ _ Fr Fg) as [F1 E1]; [eapply Rle_trans; [exact A1|apply bpow_le; lia]|].
  pose proof (rnd_err _ 18 ltac:(lia) A1) as X1. rewrite <- E1 in X1. apply Rabs_le_inv in X1.
  assert (T36 : (bpow radix2 (18 - 54) <= bpow radix2 (-30))%R) by (apply bpow_le; lia).
  set (s1 := fadd (sq_term (chan r)) (sq_term (chan g))) in *.
  assert (A2 : (Rabs (R64 s1 + R64 (sq_term (chan b))) <= bpow radix2 18)%R).
  { rewrite B18. apply Rabs_le. lra. }
  destruct (fadd_R _ _ F1 Fb) as [F2 E2]; [eapply Rle_trans; [exact A2|apply bpow_le; lia]|].
  pose proof (rnd_err _ 18 ltac:(lia) A2) as X2. rewrite <- E2 in X2. apply Rabs_le_inv in X2.
  set (s2 := fadd s1 (sq_term (chan b))) in *.
  assert (Es : IZR (r * r + g * g + b * b) = (IZR (r * r) + IZR (g * g) + IZR (b * b))%R) by (rewrite !plus_IZR; reflexivity).
  assert (D : (- / 2 < R64 s2 - IZR (r * r + g * g + b * b) < 1)%R) by lra.
  destruct (Z.eq_dec (r * r + g * g + b * b) 0) as [Z0|NZ].
  - (* all zero: compute *)
    assert (r = 0 /\ g = 0 /\ b = 0) as (-> & -> & ->) by nia. left. vm_compute. reflexivity.
  - assert (G : go_int s2 = Ztrunc (R64 s2)).
    { apply (go_int_small _ 262144); [exact F2| |lia]. rewrite E2. rewrite <- B18.
      apply rnd_abs_le; [lia|exact A2]. }
    unfold go_u32. rewrite G.
    destruct (Ztrunc_near (R64 s2) (r * r + g * g + b * b) ltac:(nia) D) as [-> | ->];
      [left|right]; unfold u32, wrapu; apply Z.mod_small; change (2 ^ 32) with 4294967296; nia.
Qed.

(** Pixel table of an image made by ToData. *)
Lemma mapM2_znth {B} (f : Z -> Z -> option B) w h t : 
  mapM (fun y => mapM (fun x => f x y) (zrange w)) (zrange h) = Some t ->
  forall x y, 0 <= x < w -> 0 <= y < h ->
    match znth t y with Some row => znth row x | None => None end = f x y.
Proof.
  intros H x y Hx Hy. rewrite (mapM_znth _ _ _ y H), znth_zrange by lia.
  destruct (mapM (fun x => f x y) (zrange w)) as [row|] eqn:E.
  - rewrite (mapM_znth _ _ _ x E), znth_zrange by lia. reflexivity.
  - exfalso. pose proof (mapM_nth _ _ _ (Z.to_nat y) H) as N. rewrite zrange_nth in N.
    destruct (Nat.ltb_spec (Z.to_nat y) (Z.to_nat h)); [|lia].
    replace (Z.of_nat (Z.to_nat y)) with y in N by lia. rewrite E in N.
    apply nth_error_None in N. rewrite (mapM_length _ _ _ H), zrange_length in N. lia.
Qed.

Lemma from_image_total im : good_image im -> exists t, from_image im = Some t /\ length t = Z.to_nat (i_h im) /\
  (forall x y, 0 <= x < i_w im -> 0 <= y < i_h im ->
     exists c, i_at im x y = Some c /\ rgb_unit c /\
     match znth t y with Some row => znth row x | None => None end = Some (to_pixel c)) /\
  (forall row, In row t -> length row = Z.to_nat (i_w im)).
Proof.
  intros (Hw & Hh & HA). unfold from_image.
  destruct (_ || _) eqn:C.
  { exfalso. apply orb_true_iff in C. rewrite andb_true_iff, !Z.ltb_lt in C. lia. }
  destruct (mapM_Some (fun y => mapM (fun x => option_map to_pixel (i_at im x y)) (zrange (i_w im))) (zrange (i_h im))) as [t E].
  { intros y Hy. apply zrange_In in Hy.
    destruct (mapM_Some (fun x => option_map to_pixel (i_at im x y)) (zrange (i_w im))) as [row ->]; [|congruence].
    intros x Hx. apply zrange_In in Hx. destruct (HA x y Hx Hy) as (c & -> & _). discriminate. }
  exists t. split; [exact E|]. split; [rewrite (mapM_length _ _ _ E), zrange_length; reflexivity|]. split.
  - intros x y Hx Hy. destruct (HA x y Hx Hy) as (c & Ec & U). exists c. split; [exact Ec|]. split; [exact U|].
    rewrite (mapM2_znth (fun x y => option_map to_pixel (i_at im x y)) _ _ _ E x y Hx Hy), Ec. reflexivity.
  - intros row Hr. apply In_nth_error in Hr. destruct Hr as [i Hi].
    rewrite (mapM_nth _ _ _ i E) in Hi. destruct (nth_error (zrange (i_h im)) i); [|discriminate].
    apply mapM_length in Hi. rewrite Hi, zrange_length. reflexivity.
Qed.

Lemma convert_chan c : convert_color c = chan (c / 256).
Proof. unfold convert_color, chan. rewrite Z.shiftr_div_pow2 by lia. reflexivity. Qed.

Lemma chan_range c : 0 <= c < 65536 -> 0 <= c / 256 < 256.
Proof. intros. split; [apply Z.div_pos; lia|apply Z.div_lt_upper_bound; lia]. Qed.

Lemma good_to_data im d : 0 <= g_maxx im -> 0 <= g_maxy im -> conforming im -> to_data im = Some d -> good_image (as_idata d).
Proof.
  intros Hx Hy Hc E. destruct (to_data_spec im Hx Hy Hc) as (d' & E' & W & H & _ & I).
  rewrite E in E'. injection E' as <-. unfold good_image, as_idata. cbn [i_w i_h i_at]. rewrite W, H.
  repeat split; try lia. intros x y X Y. destruct (I x y X Y) as (c & A & U & _). eauto.
Qed.

Lemma pixels_of_image im : 0 <= g_maxx im -> 0 <= g_maxy im -> conforming im ->
  exists d t, to_data im = Some d /\ from_image (as_idata d) = Some t /\
  forall x y, 0 <= x < g_maxx im -> 0 <= y < g_maxy im ->
    exists p, match znth t y with Some row => znth row x | None => None end = Some p /\
      let '(r, g, b) := g_at im x y in
      (p_r p = r / 256 /\ p_g p = g / 256 /\ p_b p = b / 256) /\
      let s := (r / 256) * (r / 256) + (g / 256) * (g / 256) + (b / 256) * (b / 256) in
      (p_sq p = s \/ p_sq p = s - 1).
Proof.
  intros Hx Hy Hc. destruct (to_data_spec im Hx Hy Hc) as (d & E & W & H & _ & _).
  destruct (from_image_total (as_idata d) (good_to_data im d Hx Hy Hc E)) as (t & T & _ & P & _).
  exists d, t. split; [exact E|]. split; [exact T|]. cbn [as_idata i_w i_h i_at] in P. rewrite W, H in P.
  intros x y X Y. destruct (P x y X Y) as (c & A & _ & Q). exists (to_pixel c). split; [exact Q|].
  rewrite (to_data_at im d x y E) in A. specialize (Hc x y).
  destruct (Z.leb_spec 0 x), (Z.ltb_spec x (g_maxx im)), (Z.leb_spec 0 y), (Z.ltb_spec y (g_maxy im)); try lia. cbn [andb] in A.
  destruct (g_at im x y) as [[r g] b]. destruct Hc as (R & G & B). injection A as <-.
  rewrite !convert_chan. unfold to_pixel. cbn [cr cg cb p_r p_g p_b p_sq].
  rewrite !chan_u8 by (apply chan_range; assumption). split; [auto|].
  cbv zeta. apply sq_expr_ok; apply chan_range; assumption.
Qed.

(* ---------------- C14 ---------------- *)

Lemma fold_zrange {A} (f : A -> Z -> A) n a : 0 <= n ->
  fold_left f (zrange (n + 1)) a = f (fold_left f (zrange n) a) n.
Proof. intros H. rewrite zrange_S by exact H. rewrite fold_left_app. reflexivity. Qed.

(** Component-wise sum of pixels modulo the field widths. *)
Definition wrap_pixel (r g b sq : Z) : pixel := Px (u16 r) (u16 g) (u16 b) (u32 sq).

Lemma u16_add a b : u16 (u16 a + b) = u16 (a + b).
Proof. unfold u16, wrapu. apply Zplus_mod_idemp_l. Qed.
Lemma u32_add a b : u32 (u32 a + b) = u32 (a + b).
Proof. unfold u32, wrapu. apply Zplus_mod_idemp_l. Qed.

Lemma unit_mul255 v : in_unit v -> fin (fmul v (f64_of_Z 255)) /\ (0 <= R64 (fmul v (f64_of_Z 255)) <= 255)%R.
Proof.
  intros [F [H0 H1]]. destruct (of_Z_R 255 ltac:(lia)) as [F2 E2].
  assert (B : (0 <= R64 v * R64 (f64_of_Z 255) <= 255)%R) by (rewrite E2; lra).
  destruct (fmul_R v (f64_of_Z 255) F F2) as [Fm Em].
  - rewrite Rabs_pos_eq by lra. eapply Rle_trans with (bpow radix2 8); [change (bpow radix2 8) with 256%R; lra|apply bpow_le; lia].
  - split; [exact Fm|]. rewrite Em. split.
    + rewrite <- rnd_0. apply rnd_le. lra.
    + replace 255%R with (rnd 255) by (apply (rnd_Z 255); lia). apply rnd_le. lra.
Qed.

Lemma unit_u8 v : in_unit v -> go_u16 (fmul v (f64_of_Z 255)) = go_u8 (fmul v (f64_of_Z 255)) /\
  0 <= go_u8 (fmul v (f64_of_Z 255)) <= 255.
Proof.
  intros H. destruct (unit_mul255 v H) as [F B]. unfold go_u16, go_u8.
  rewrite (go_int_small _ 255); [|exact F|rewrite Rabs_pos_eq; lra|lia].
  assert (0 <= Ztrunc (R64 (fmul v (f64_of_Z 255))) <= 255).
  { apply Ztrunc_range; lra. }
  unfold u16, u8, wrapu. rewrite !Z.mod_small by lia. lia.
Qed.

Lemma unit_sq_term v : in_unit v -> fin (sq_term v) /\ (0 <= R64 (sq_term v) <= 65025)%R.
Proof.
  intros H. destruct (unit_mul255 v H) as [F1 B1]. destruct H as [Fv [V0 V1]]. unfold sq_term.
  set (a := fmul v (f64_of_Z 255)) in *.
  assert (B2 : (0 <= R64 a * R64 v <= 255)%R) by nra.
  destruct (fmul_R a v F1 Fv) as [F2 E2].
  { rewrite Rabs_pos_eq by lra. eapply Rle_trans with (bpow radix2 8); [change (bpow radix2 8) with 256%R; lra|apply bpow_le; lia]. }
  assert (B3 : (0 <= R64 (fmul a v) <= 255)%R).
  { rewrite E2. split; [rewrite <- rnd_0; apply rnd_le; lra|]. replace 255%R with (rnd 255) by (apply (rnd_Z 255); lia). apply rnd_le. lra. }
  destruct (of_Z_R 255 ltac:(lia)) as [F5 E5].
  assert (B4 : (0 <= R64 (fmul a v) * R64 (f64_of_Z 255) <= 65025)%R) by (rewrite E5; lra).
  destruct (fmul_R (fmul a v) (f64_of_Z 255) F2 F5) as [F6 E6].
  { rewrite Rabs_pos_eq by lra. eapply Rle_trans with (bpow radix2 16); [change (bpow radix2 16) with 65536%R; lra|apply bpow_le; lia]. }
  split; [exact F6|]. rewrite E6. split; [rewrite <- rnd_0; apply rnd_le; lra|].
  replace 65025%R with (rnd 65025) by (apply (rnd_Z 65025); lia). apply rnd_le. lra.
Qed.

Lemma unit_sq c : rgb_unit c -> 0 <= go_u32 (sq_expr c) <= 195075.
Proof.
  intros (H1 & H2 & H3). unfold sq_expr. cbv zeta. fold (sq_term (cr c)) (sq_term (cg c)) (sq_term (cb c)).
  destruct (unit_sq_term _ H1) as [F1 B1]. destruct (unit_sq_term _ H2) as [F2 B2]. destruct (unit_sq_term _ H3) as [F3 B3].
  destruct (fadd_R _ _ F1 F2) as [F4 E4].
  { rewrite Rabs_pos_eq by lra. eapply Rle_trans with (bpow radix2 18); [change (bpow radix2 18) with 262144%R; lra|apply bpow_le; lia]. }
  assert (B4 : (0 <= R64 (fadd (sq_term (cr c)) (sq_term (cg c))) <= 130050)%R).
  { rewrite E4. split; [rewrite <- rnd_0; apply rnd_le; lra|]. replace 130050%R with (rnd 130050) by (apply (rnd_Z 130050); lia). apply rnd_le. lra. }
  destruct (fadd_R _ _ F4 F3) as [F5 E5].
  { rewrite Rabs_pos_eq by lra. eapply Rle_trans with (bpow radix2 18); [change (bpow radix2 18) with 262144%R; lra|apply bpow_le; lia]. }
  assert (B5 : (0 <= R64 (fadd (fadd (sq_term (cr c)) (sq_term (cg c))) (sq_term (cb c))) <= 195075)%R).
  { rewrite E5. split; [rewrite <- rnd_0; apply rnd_le; lra|]. replace 195075%R with (rnd 195075) by (apply (rnd_Z 195075); lia). apply rnd_le. lra. }
  set (s := fadd (fadd (sq_term (cr c)) (sq_term (cg c))) (sq_term (cb c))) in *.
  unfold go_u32. rewrite (go_int_small _ 195075); [|exact F5|rewrite Rabs_pos_eq; lra|lia].
  assert (0 <= Ztrunc (R64 s) <= 195075).
  { apply Ztrunc_range; lra. }
  unfold u32, wrapu. rewrite Z.mod_small by lia. lia.
Qed.

Lemma to_pixel_range c : rgb_unit c -> let p := to_pixel c in
  0 <= p_r p <= 255 /\ 0 <= p_g p <= 255 /\ 0 <= p_b p <= 255 /\ 0 <= p_sq p <= 195075.
Proof.
  intros U. pose proof (unit_sq c U). destruct U as (H1 & H2 & H3). cbv zeta. cbn [to_pixel p_r p_g p_b p_sq].
  pose proof (proj2 (unit_u8 _ H1)). pose proof (proj2 (unit_u8 _ H2)). pose proof (proj2 (unit_u8 _ H3)). auto.
Qed.

(** [at_ x y] is a table giving the colour; sums over it. *)
Section Block.
Variables (im : idata) (at_ : Z -> Z -> rgb) (n x y : Z).
Hypothesis Hn : 0 <= n.
Hypothesis Hat : forall i j, 0 <= i < n -> 0 <= j < n -> i_at im (x + i) (y + j) = Some (at_ (x + i) (y + j)) /\ rgb_unit (at_ (x + i) (y + j)).

Definition field (f : pixel -> Z) (a b : Z) : Z := f (to_pixel (at_ a b)).

Lemma add_pixelN_wrap r g b sq c : rgb_unit c ->
  add_pixelN (wrap_pixel r g b sq) c =
  wrap_pixel (r + p_r (to_pixel c)) (g + p_g (to_pixel c)) (b + p_b (to_pixel c)) (sq + p_sq (to_pixel c)).
Proof.
  intros (H1 & H2 & H3). unfold add_pixelN, wrap_pixel. cbn [p_r p_g p_b p_sq to_pixel].
  rewrite !u16_add, u32_add. rewrite (proj1 (unit_u8 _ H1)), (proj1 (unit_u8 _ H2)), (proj1 (unit_u8 _ H3)). reflexivity.
Qed.

Lemma inner_loop i m r g b sq : 0 <= i < n -> (Z.of_nat m <= n) ->
  fold_left (fun acc j => match acc, i_at im (x + i) (y + j) with
      | Some col, Some c => Some (add_pixelN col c) | _, _ => None end) (zrange (Z.of_nat m)) (Some (wrap_pixel r g b sq))
  = Some (wrap_pixel (r + sum_to m (fun j => field p_r (x + i) (y + j))) (g + sum_to m (fun j => field p_g (x + i) (y + j)))
                     (b + sum_to m (fun j => field p_b (x + i) (y + j))) (sq + sum_to m (fun j => field p_sq (x + i) (y + j)))).
Proof.
  intros Hi. induction m as [|m IH]; intros Hm.
  - cbn [sum_to]. rewrite !Z.add_0_r. reflexivity.
  - replace (Z.of_nat (S m)) with (Z.of_nat m + 1) by lia. rewrite fold_zrange by lia. rewrite IH by lia.
    destruct (Hat i (Z.of_nat m) Hi ltac:(lia)) as [-> U]. rewrite add_pixelN_wrap by exact U.
    cbn [sum_to]. unfold field. rewrite !Z.add_assoc. reflexivity.
Qed.

Lemma outer_loop m : (Z.of_nat m <= n) ->
  fold_left (fun acc i => fold_left (fun acc j => match acc, i_at im (x + i) (y + j) with
      | Some col, Some c => Some (add_pixelN col c) | _, _ => None end) (zrange n) acc) (zrange (Z.of_nat m)) (Some (Px 0 0 0 0))
  = let S f := sum_to m (fun i => sum_to (Z.to_nat n) (fun j => field f (x + i) (y + j))) in
    Some (wrap_pixel (S p_r) (S p_g) (S p_b) (S p_sq)).
Proof.
  cbv zeta. induction m as [|m IH]; intros Hm.
  - reflexivity.
  - replace (Z.of_nat (S m)) with (Z.of_nat m + 1) by lia. rewrite fold_zrange by lia. rewrite IH by lia.
    cbv beta. replace (zrange n) with (zrange (Z.of_nat (Z.to_nat n))) by (f_equal; lia).
    rewrite inner_loop by lia. cbn [sum_to]. reflexivity.
Qed.

Lemma block_value_wrap : block_value im n x y =
  Some (wrap_pixel (block_sum n x y (field p_r)) (block_sum n x y (field p_g))
                   (block_sum n x y (field p_b)) (block_sum n x y (field p_sq))).
Proof.
  pose proof (outer_loop (Z.to_nat n) ltac:(lia)) as O. rewrite Z2Nat.id in O by exact Hn. exact O.
Qed.

Lemma sum_to_bound m f c : (forall i, 0 <= i < Z.of_nat m -> 0 <= f i <= c) -> 0 <= sum_to m f <= Z.of_nat m * c.
Proof.
  induction m as [|m IH]; intros H; cbn [sum_to]; [lia|].
  specialize (IH ltac:(intros; apply H; lia)). specialize (H (Z.of_nat m) ltac:(lia)). nia.
Qed.

Lemma block_sum_bound f c : (forall i j, 0 <= i < n -> 0 <= j < n -> 0 <= f (x + i) (y + j) <= c) ->
  0 <= block_sum n x y f <= n * n * c.
Proof.
  intros H. unfold block_sum.
  pose proof (sum_to_bound (Z.to_nat n) (fun i => sum_to (Z.to_nat n) (fun j => f (x + i) (y + j))) (n * c)) as B.
  rewrite Z2Nat.id in B by exact Hn. rewrite <- Z.mul_assoc. apply B.
  intros i Hi. pose proof (sum_to_bound (Z.to_nat n) (fun j => f (x + i) (y + j)) c) as B2.
  rewrite Z2Nat.id in B2 by exact Hn. apply B2. intros j Hj. apply H; assumption.
Qed.

Lemma block_value_exact : n <= 16 -> block_value im n x y =
  Some (Px (block_sum n x y (field p_r)) (block_sum n x y (field p_g))
           (block_sum n x y (field p_b)) (block_sum n x y (field p_sq))).
Proof.
  intros H16. rewrite block_value_wrap. unfold wrap_pixel, u16, u32, wrapu.
  assert (N : n * n <= 256) by nia. 
  assert (R : forall i j, 0 <= i < n -> 0 <= j < n -> let p := to_pixel (at_ (x + i) (y + j)) in
     0 <= p_r p <= 255 /\ 0 <= p_g p <= 255 /\ 0 <= p_b p <= 255 /\ 0 <= p_sq p <= 195075).
  { intros i j Hi Hj. apply to_pixel_range. apply Hat; assumption. }
  pose proof (block_sum_bound (field p_r) 255 ltac:(intros; apply R; assumption)).
  pose proof (block_sum_bound (field p_g) 255 ltac:(intros; apply R; assumption)).
  pose proof (block_sum_bound (field p_b) 255 ltac:(intros; apply R; assumption)).
  pose proof (block_sum_bound (field p_sq) 195075 ltac:(intros; apply R; assumption)).
  change (2 ^ 16) with 65536. change (2 ^ 32) with 4294967296.
  rewrite !Z.mod_small by nia. reflexivity.
Qed.
End Block.

(** The block table relative to the pixel table. *)
Definition tab (t : list (list pixel)) (x y : Z) : pixel :=
  match znth t y with Some row => match znth row x with Some p => p | None => Px 0 0 0 0 end | None => Px 0 0 0 0 end.

Lemma sum_to_ext m f g : (forall i, 0 <= i < Z.of_nat m -> f i = g i) -> sum_to m f = sum_to m g.
Proof.
  induction m as [|m IH]; intros H; cbn [sum_to]; [reflexivity|]. rewrite IH by (intros; apply H; lia).
  rewrite H by lia. reflexivity.
Qed.
Lemma block_sum_ext n x y f g : (forall i j, 0 <= i < n -> 0 <= j < n -> f (x + i) (y + j) = g (x + i) (y + j)) ->
  block_sum n x y f = block_sum n x y g.
Proof.
  intros H. unfold block_sum. apply sum_to_ext. intros i Hi. apply sum_to_ext. intros j Hj. apply H; lia.
Qed.

Lemma from_imageN_spec im n t : good_image im -> 1 <= n -> n <= i_w im + 1 -> n <= i_h im + 1 ->
  from_image im = Some t ->
  exists tn, from_imageN im n = Some tn /\
    Z.of_nat (length tn) = i_h im - n + 1 /\ (forall row, In row tn -> Z.of_nat (length row) = i_w im - n + 1) /\
    forall x y, 0 <= x <= i_w im - n -> 0 <= y <= i_h im - n ->
      let S f := block_sum n x y (fun a b => f (tab t a b)) in
      match znth tn y with Some row => znth row x | None => None end =
        Some (Px (u16 (S p_r)) (u16 (S p_g)) (u16 (S p_b)) (u32 (S p_sq))) /\
      (n <= 16 -> match znth tn y with Some row => znth row x | None => None end = Some (Px (S p_r) (S p_g) (S p_b) (S p_sq))).
Proof.
  intros G Hn Hnw Hnh T. destruct (from_image_total im G) as (t' & T' & _ & P & _).
  rewrite T in T'. injection T' as <-.
  set (at_ := fun x y => match i_at im x y with Some c => c | None => RGB f0 f0 f0 end).
  assert (HA : forall a b, 0 <= a < i_w im -> 0 <= b < i_h im -> i_at im a b = Some (at_ a b) /\ rgb_unit (at_ a b)
     /\ to_pixel (at_ a b) = tab t a b).
  { intros a b Ha Hb. destruct (P a b Ha Hb) as (c & E & U & Q). unfold at_, tab. rewrite E.
    destruct (znth t b); [|discriminate]. rewrite Q. auto. }
  assert (Hblk : forall x y, 0 <= x <= i_w im - n -> 0 <= y <= i_h im - n ->
     forall i j, 0 <= i < n -> 0 <= j < n -> i_at im (x + i) (y + j) = Some (at_ (x + i) (y + j)) /\ rgb_unit (at_ (x + i) (y + j))).
  { intros x y Hx Hy i j Hi Hj. destruct (HA (x + i) (y + j)) as (A & B & _); try lia. auto. }
  unfold from_imageN. cbv zeta.
  destruct (_ || _) eqn:C.
  { exfalso. apply orb_true_iff in C. rewrite andb_true_iff, !Z.ltb_lt in C. lia. }
  destruct (mapM_Some (fun y => mapM (fun x => block_value im n x y) (zrange (i_w im - n + 1))) (zrange (i_h im - n + 1))) as [tn E].
  { intros y Hy. apply zrange_In in Hy.
    destruct (mapM_Some (fun x => block_value im n x y) (zrange (i_w im - n + 1))) as [row ->]; [|congruence].
    intros x Hx. apply zrange_In in Hx.
    rewrite (block_value_wrap im at_ n x y ltac:(lia) (Hblk x y ltac:(lia) ltac:(lia))). discriminate. }
  exists tn. split; [exact E|]. split; [rewrite (mapM_length _ _ _ E), zrange_length; lia|]. split.
  - intros row Hr. apply In_nth_error in Hr. destruct Hr as [i Hi].
    rewrite (mapM_nth _ _ _ i E) in Hi. destruct (nth_error (zrange (i_h im - n + 1)) i); [|discriminate].
    apply mapM_length in Hi. rewrite Hi, zrange_length. lia.
  - intros x y Hx Hy. cbv zeta.
    rewrite (mapM2_znth (fun x y => block_value im n x y) _ _ _ E x y) by lia.
    assert (X : forall f, block_sum n x y (field at_ f) = block_sum n x y (fun a b => f (tab t a b))).
    { intros f. apply block_sum_ext. intros i j Hi Hj. unfold field. f_equal.
      apply HA; lia. }
    split; [|intros H16].
    + rewrite (block_value_wrap im at_ n x y ltac:(lia) (Hblk x y Hx Hy)). unfold wrap_pixel. rewrite !X. reflexivity.
    + rewrite (block_value_exact im at_ n x y ltac:(lia) (Hblk x y Hx Hy) H16). rewrite !X. reflexivity.
Qed.

Lemma sq_witness : exists c, 0 <= c < 65536 /\
  p_sq (to_pixel (RGB (convert_color c) (convert_color 0) (convert_color 0))) = (c / 256) * (c / 256) - 1.
Proof. exists 1799. split; [lia|]. vm_compute. reflexivity. Qed.

Definition white (n : Z) : idata := IData n n (fun x y => if (0 <=? x) && (x <? n) && (0 <=? y) && (y <? n) then Some (RGB f1 f1 f1) else None).

Lemma white_good n : 0 <= n -> good_image (white n).
Proof.
  intros Hn. repeat split; try (cbn; lia). intros x y Hx Hy. cbn in *.
  exists (RGB f1 f1 f1). destruct (Z.leb_spec 0 x), (Z.ltb_spec x n), (Z.leb_spec 0 y), (Z.ltb_spec y n); try lia.
  split; [reflexivity|]. split; [|split]; exact f1_in.
Qed.

Lemma wrap_witness : exists im, good_image im /\
  option_map (fun p => p_r p) (block_value im 17 0 0) = Some 8159 /\ 17 * 17 * 255 = 73695.
Proof. exists (white 17). split; [apply white_good; lia|]. split; vm_compute; reflexivity. Qed.
