(** The scores of the ears. *)
From Coq Require Import ZArith List Bool Lia Psatz Reals Lra.
From Flocq Require Import Core Raux.
From Verif Require Import GoNum FloatLemmas M_Geom S_Geom M_Slice M_Raster S_Raster L_Raster1 L_Raster6 M_Delaunay S_Delaunay L_PMap L_Super L_Plane L_BW L_Var L_Insert L_Ear L_Gap L_EarLoop L_Lookup.
Import ListNotations.
Local Open Scope Z_scope.

Lemma orient_bound w h a b c : size_ok w h -> okv w h a -> okv w h b -> okv w h c -> Z.abs (orient a b c) <= 2 * 32764 * 32764.
Proof.
  intros S A B C. pose proof (okv_diff _ _ _ _ S B A) as [X1 Y1]. pose proof (okv_diff _ _ _ _ S C A) as [X2 Y2].
  pose proof (mul_bound _ _ _ _ X1 Y2). pose proof (mul_bound _ _ _ _ Y1 X2). unfold orient. lia.
Qed.
Lemma in_circle_pos w h a b c p : size_ok w h -> okv w h a -> okv w h b -> okv w h c -> in_image w h p -> 0 < orient a b c ->
  in_circle (px a) (py a) (px b) (py b) (px c) (py c) (px p) (py p) = incirc a b c p.
Proof.
  intros S A B C P O. unfold in_circle. rewrite (orientation_exact w h) by assumption. destruct (Z.ltb_spec (orient a b c) 0); [lia|].
  pose proof (incirc_small w h _ _ _ _ S A B C P) as Q. unfold incirc in *. rewrite i64_id by exact Q. reflexivity.
Qed.
Lemma score_val w h a b c p : size_ok w h -> okv w h a -> okv w h b -> okv w h c -> in_image w h p -> 0 < orient a b c ->
  fin (calculate_score a b c p) /\ R64 (calculate_score a b c p) = rnd (rnd (IZR (incirc a b c p)) / IZR (orient a b c)) /\ (Rabs (R64 (calculate_score a b c p)) <= bpow radix2 63)%R.
Proof.
  intros S A B C P O. unfold calculate_score. cbv zeta. rewrite (orientation_exact w h) by assumption. destruct (Z.leb_spec (orient a b c) 0); [lia|].
  rewrite (in_circle_pos w h) by assumption. pose proof (incirc_small w h _ _ _ _ S A B C P) as QI. pose proof (orient_bound w h a b c S A B C) as QO.
  set (I := incirc a b c p) in *. set (o := orient a b c) in *. clearbody I o.
  destruct (of_Z_big I ltac:(lia)) as [F1 E1]. destruct (of_Z_R o ltac:(lia)) as [F2 E2].
  assert (O1 : (1 <= IZR o)%R) by (apply IZR_le; lia).
  assert (I1 : (Rabs (rnd (IZR I)) <= bpow radix2 63)%R).
  { apply rnd_abs_le; [lia|]. rewrite <- abs_IZR. change (bpow radix2 63) with (IZR (2 ^ 63)). apply IZR_le. lia. }
  assert (D1 : (Rabs (rnd (IZR I) / IZR o) <= bpow radix2 63)%R).
  { unfold Rdiv. rewrite Rabs_mult. rewrite (Rabs_pos_eq (/ IZR o)) by (apply Rlt_le, Rinv_0_lt_compat; lra).
    apply Rle_trans with (Rabs (rnd (IZR I)) * 1)%R; [|lra]. apply Rmult_le_compat_l; [apply Rabs_pos|]. rewrite <- Rinv_1. apply Rinv_le; lra. }
  destruct (fdiv_R (f64_of_Z I) (f64_of_Z o) F1 F2) as [F3 E3].
  - rewrite E2. lra.
  - rewrite E1, E2. eapply Rle_trans; [exact D1|]. apply bpow_le. lia.
  - rewrite E1, E2 in E3. split; [exact F3|]. split; [exact E3|]. rewrite E3. apply rnd_abs_le; [lia|exact D1].
Qed.
Lemma max_R : (bpow radix2 63 < R64 max_float64)%R.
Proof.
  destruct (f64_dy_R 1 64) as [F E]; [rewrite Rmult_1_l, Rabs_pos_eq by apply bpow_ge_0; apply bpow_le; lia|].
  rewrite Rmult_1_l, rnd_bpow in E by lia. apply Rlt_trans with (R64 (f64_dy 1 64)); [rewrite E; apply bpow_lt; lia|].
  assert (Q : flt (f64_dy 1 64) max_float64 = true) by (vm_compute; reflexivity). rewrite flt_R in Q by (exact F || exact max_fin).
  revert Q. case Rlt_bool_spec; [auto|discriminate].
Qed.

(** Quotients that are not too close stay apart after rounding. *)
Lemma quot_gap I O I' O' Q : 0 < O <= 2 ^ 50 -> 0 < O' <= 2 ^ 50 -> 0 <= I -> 0 < I' -> 0 < Q <= 2 ^ 52 - 2 ^ 47 -> I * O' * Q <= I' * O * (Q - 1) ->
  (rnd (IZR I / IZR O) < rnd (IZR I' / IZR O'))%R.
Proof.
  intros HO HO' P P' HQ L. assert (O1 : (1 <= IZR O)%R) by (apply IZR_le; lia). assert (O2 : (1 <= IZR O')%R) by (apply IZR_le; lia).
  assert (O4 : (IZR O' <= bpow radix2 50)%R) by (change (bpow radix2 50) with (IZR (2 ^ 50)); apply IZR_le; lia).
  assert (Q1 : (1 <= IZR Q)%R) by (apply IZR_le; lia).
  assert (Q2 : (IZR Q * (bpow radix2 (-52) + bpow radix2 (-57)) <= 1)%R).
  { apply Rle_trans with (IZR (2 ^ 52 - 2 ^ 47) * (bpow radix2 (-52) + bpow radix2 (-57)))%R.
    - apply Rmult_le_compat_r; [pose proof (bpow_ge_0 radix2 (-52)); pose proof (bpow_ge_0 radix2 (-57)); lra|apply IZR_le; lia].
    - replace (IZR (2 ^ 52 - 2 ^ 47)) with (bpow radix2 52 * (1 - / 32))%R by (rewrite minus_IZR; change (IZR (2 ^ 47)) with (bpow radix2 (52 + -5)); rewrite bpow_plus; change (bpow radix2 (-5)) with (/ 32)%R; change (IZR (2 ^ 52)) with (bpow radix2 52); ring).
      change (bpow radix2 (-57)) with (bpow radix2 (-52 + -5)). rewrite bpow_plus. change (bpow radix2 (-5)) with (/ 32)%R. change (bpow radix2 (-52)) with (/ bpow radix2 52)%R.
      replace (bpow radix2 52 * (1 - / 32) * (/ bpow radix2 52 + / bpow radix2 52 * / 32))%R with ((1 - / 32) * (1 + / 32))%R; [lra|]. field. apply Rgt_not_eq, bpow_gt_0. }
  set (v := (IZR I / IZR O)%R). set (v' := (IZR I' / IZR O')%R).
  assert (V0 : (0 <= v)%R). { unfold v, Rdiv. apply Rmult_le_pos; [apply IZR_le; lia|]. apply Rlt_le, Rinv_0_lt_compat. lra. }
  assert (V1 : (bpow radix2 (-50) <= v')%R).
  { change (-50) with (- (50)). rewrite bpow_opp. unfold v', Rdiv. apply Rle_trans with (1 * / IZR O')%R; [rewrite Rmult_1_l; apply Rinv_le; lra|].
    apply Rmult_le_compat_r; [apply Rlt_le, Rinv_0_lt_compat; lra|]. apply IZR_le. lia. }
  assert (G : (v * IZR Q <= v' * (IZR Q - 1))%R).
  { apply IZR_le in L. rewrite !mult_IZR, minus_IZR in L.
    replace (v * IZR Q)%R with (IZR I * IZR O' * IZR Q * (/ IZR O * / IZR O'))%R by (unfold v; field; lra).
    replace (v' * (IZR Q - 1))%R with (IZR I' * IZR O * (IZR Q - 1) * (/ IZR O * / IZR O'))%R by (unfold v'; field; lra).
    apply Rmult_le_compat_r; [|exact L]. apply Rlt_le, Rmult_lt_0_compat; apply Rinv_0_lt_compat; lra. }
  clearbody v v'. pose proof (bpow_gt_0 radix2 (-50)) as B50.
  assert (LV : (v <= v')%R). { destruct (Rle_lt_dec v v') as [K|K]; [exact K|]. exfalso. assert (v' * IZR Q < v * IZR Q)%R by (apply Rmult_lt_compat_r; lra). lra. }
  destruct (Rlt_le_dec (rnd v) (rnd v')) as [K|K]; [exact K|exfalso].
  pose proof (rnd_rel v) as E1. pose proof (rnd_rel v') as E2. rewrite (Rabs_pos_eq v) in E1 by exact V0. rewrite (Rabs_pos_eq v') in E2 by lra. apply Rabs_le_inv in E1. apply Rabs_le_inv in E2.
  assert (T : (v' - v <= bpow radix2 (-52) * v' + 2 * bpow radix2 (-1075))%R).
  { change (bpow radix2 (-52)) with (bpow radix2 (1 + -53)). rewrite bpow_plus. change (bpow radix2 1) with 2%R. assert (bpow radix2 (-53) * v <= bpow radix2 (-53) * v')%R by (apply Rmult_le_compat_l; [apply bpow_ge_0|exact LV]). lra. }
  assert (T2 : (v' * (bpow radix2 (-52) + bpow radix2 (-57)) <= v' - v)%R).
  { apply Rmult_le_reg_l with (IZR Q); [lra|]. apply Rle_trans with (v' * 1)%R; [|lra]. replace (IZR Q * (v' * (bpow radix2 (-52) + bpow radix2 (-57))))%R with (v' * (IZR Q * (bpow radix2 (-52) + bpow radix2 (-57))))%R by ring.
    apply Rmult_le_compat_l; lra. }
  assert (T3 : (v' * bpow radix2 (-57) <= 2 * bpow radix2 (-1075))%R) by lra.
  assert (T4 : (bpow radix2 (-50) * bpow radix2 (-57) <= v' * bpow radix2 (-57))%R) by (apply Rmult_le_compat_r; [apply bpow_ge_0|exact V1]).
  assert (T5 : (2 * bpow radix2 (-1075) < bpow radix2 (-50) * bpow radix2 (-57))%R).
  { change 2%R with (bpow radix2 1). rewrite <- !bpow_plus. apply bpow_lt. lia. }
  lra.
Qed.

(** * Images up to 1920x1920 *)
Lemma box_area W H ax ay bx by_ cx cy lx ly : lx <= ax <= lx + W -> lx <= bx <= lx + W -> lx <= cx <= lx + W -> ly <= ay <= ly + H -> ly <= by_ <= ly + H -> ly <= cy <= ly + H ->
  Z.abs ((bx - ax) * (cy - ay) - (by_ - ay) * (cx - ax)) <= W * H.
Proof.
  assert (K : forall u v s t, 0 <= u -> 0 <= v -> u + v <= W -> Z.abs s <= H -> Z.abs t <= H -> Z.abs (u * s - v * t) <= W * H).
  { intros u v s t U V UV S T. apply Z.abs_le. nia. }
  intros A B C A' B' C'.
  destruct (Z_le_gt_dec ax bx), (Z_le_gt_dec bx cx), (Z_le_gt_dec ax cx); try lia.
  - replace (_ - _) with ((bx - ax) * (cy - by_) - (cx - bx) * (by_ - ay)) by ring. apply K; lia.
  - replace (_ - _) with (- ((cx - ax) * (by_ - cy) - (bx - cx) * (cy - ay))) by ring. rewrite Z.abs_opp. apply K; lia.
  - replace (_ - _) with ((ax - cx) * (by_ - ay) - (bx - ax) * (ay - cy)) by ring. apply K; lia.
  - replace (_ - _) with (- ((ax - bx) * (cy - ay) - (cx - ax) * (ay - by_))) by ring. rewrite Z.abs_opp. apply K; lia.
  - replace (_ - _) with ((cx - bx) * (ay - cy) - (ax - cx) * (cy - by_)) by ring. apply K; lia.
  - replace (_ - _) with (- ((bx - cx) * (ay - by_) - (ax - bx) * (by_ - cy))) by ring. rewrite Z.abs_opp. apply K; lia.
Qed.
Lemma small_ok w h : small_size w h -> size_ok w h.
Proof. unfold small_size, size_ok. lia. Qed.
Lemma small_orient w h a b c : small_size w h -> okv w h a -> okv w h b -> okv w h c -> Z.abs (orient a b c) <= 44236800.
Proof.
  intros T A B C. pose proof (small_ok _ _ T) as S. pose proof (okv_range _ _ _ S A) as RA. pose proof (okv_range _ _ _ S B) as RB. pose proof (okv_range _ _ _ S C) as RC. cbv zeta in *.
  unfold orient. destruct T as (Tw & Th & _). eapply Z.le_trans; [apply (box_area (4 * Z.max w h) (3 * Z.max w h) _ _ _ _ _ _ ((w + 1) / 2 - 2 * Z.max w h) ((h + 1) / 2 - Z.max w h)); lia|]. nia.
Qed.
Lemma small_n2 w h v p : small_size w h -> okv w h v -> in_image w h p -> (px v - px p) * (px v - px p) + (py v - py p) * (py v - py p) <= 31334400.
Proof.
  intros (Tw & Th & Tm) V P. unfold in_image in P. pose proof (half_bounds w ltac:(lia)). pose proof (half_bounds h ltac:(lia)). set (m := Z.max w h) in *.
  assert (m <= 1920) by lia.
  assert (Q : forall u v a b, Z.abs u <= a -> Z.abs v <= b -> a * a + b * b <= 31334400 -> u * u + v * v <= 31334400).
  { intros u0 v0 a b U0 V0 K. nia. }
  destruct V as [[<-|[<-|[<-|[]]]]|V]; unfold sup, sA, sB, sC; cbn [ta tb tc px py]; fold m.
  - apply (Q _ _ 4800 2880); lia.
  - apply (Q _ _ 4800 2880); lia.
  - apply (Q _ _ 960 4800); lia.
  - unfold in_image in V. apply (Q _ _ 1920 1920); lia.
Qed.
Lemma cross_le a b c d M : 0 <= M -> a * a + b * b <= M -> c * c + d * d <= M -> Z.abs (a * d - c * b) <= M.
Proof.
  intros HM A B. assert (E : (a * d - c * b) * (a * d - c * b) + (a * c + b * d) * (a * c + b * d) = (a * a + b * b) * (c * c + d * d)) by ring.
  assert (Q : (a * a + b * b) * (c * c + d * d) <= M * M) by (apply Z.mul_le_mono_nonneg; nia).
  pose proof (Z.square_nonneg (a * c + b * d)). set (x := a * d - c * b) in *. clearbody x. assert (X : x * x <= M * M) by lia. clear - X HM. apply Z.abs_le. nia.
Qed.
Lemma small_incirc w h a b c p : small_size w h -> okv w h a -> okv w h b -> okv w h c -> in_image w h p -> Z.abs (incirc a b c p) <= 3 * 31334400 * 31334400.
Proof.
  intros T A B C P. pose proof (small_n2 _ _ _ _ T A P) as NA. pose proof (small_n2 _ _ _ _ T B P) as NB. pose proof (small_n2 _ _ _ _ T C P) as NC.
  unfold incirc. set (ax := px a - px p) in *. set (ay := py a - py p) in *. set (bx := px b - px p) in *. set (by_ := py b - py p) in *.
  set (cx := px c - px p) in *. set (cy := py c - py p) in *. clearbody ax ay bx by_ cx cy.
  assert (Q : forall n k, 0 <= n <= 31334400 -> Z.abs k <= 31334400 -> Z.abs (n * k) <= 31334400 * 31334400).
  { intros n k N K. rewrite Z.abs_mul. apply Z.mul_le_mono_nonneg; lia. }
  pose proof (Q (ax * ax + ay * ay) (bx * cy - cx * by_) ltac:(nia) (cross_le _ _ _ _ 31334400 ltac:(lia) NB NC)).
  pose proof (Q (bx * bx + by_ * by_) (cx * ay - ax * cy) ltac:(nia) (cross_le _ _ _ _ 31334400 ltac:(lia) NC NA)).
  pose proof (Q (cx * cx + cy * cy) (ax * by_ - bx * ay) ltac:(nia) (cross_le _ _ _ _ 31334400 ltac:(lia) NA NB)). lia.
Qed.

(** The sizes of the numbers of which ear_gap speaks. *)
Lemma image_n2 w h a p : small_size w h -> in_image w h a -> in_image w h p -> n2 p a <= 7372800.
Proof.
  intros (Tw & Th & _) A P. unfold in_image in *. unfold n2, d2.
  assert (K : forall u, - 1920 <= u <= 1920 -> u * u <= 3686400) by (intros; nia).
  pose proof (K (px a - px p) ltac:(lia)). pose proof (K (py a - py p) ltac:(lia)). lia.
Qed.
Lemma image_dot w h a b p : small_size w h -> in_image w h a -> okv w h b -> in_image w h p -> dot_ab p a b <= 22572800.
Proof.
  intros T A B P. pose proof (image_n2 _ _ _ _ T A P) as NA. pose proof (small_n2 _ _ _ _ T B P) as NB. unfold n2, d2, dot_ab in *.
  replace (px a - px b) with ((px a - px p) - (px b - px p)) by ring. replace (py a - py b) with ((py a - py p) - (py b - py p)) by ring.
  set (ax := px a - px p) in *. set (ay := py a - py p) in *. set (bx := px b - px p) in *. set (by_ := py b - py p) in *. clearbody ax ay bx by_. clear - NA NB.
  set (g := ax * bx + ay * by_). assert (G : - g <= 15200000); [|unfold g in *; lia].
  assert (E : g * g + (ax * by_ - ay * bx) * (ax * by_ - ay * bx) = (ax * ax + ay * ay) * (bx * bx + by_ * by_)) by (unfold g; ring).
  assert (F : (ax * ax + ay * ay) * (bx * bx + by_ * by_) <= 7372800 * 31334400) by (apply Z.mul_le_mono_nonneg; nia).
  pose proof (Z.square_nonneg (ax * by_ - ay * bx)). clearbody g. nia.
Qed.
Lemma image_orient w h x y z : small_size w h -> okv w h x -> okv w h y -> in_image w h z -> orient x y z <= 31334400.
Proof.
  intros T X Y Z. pose proof (small_n2 _ _ _ _ T X Z) as NX. pose proof (small_n2 _ _ _ _ T Y Z) as NY.
  pose proof (cross_le _ _ _ _ 31334400 ltac:(lia) NX NY) as C. unfold orient.
  replace ((px y - px x) * (py z - py x) - (py y - py x) * (px z - px x)) with ((px x - px z) * (py y - py z) - (px y - px z) * (py x - py z)) by ring. lia.
Qed.
(** A triangle that turns left either has a corner in the image or is the enclosing one. *)
Lemma three_super w h x y z : okv w h x -> okv w h y -> okv w h z -> 0 < orient x y z ->
  (in_image w h x \/ in_image w h y \/ in_image w h z) \/ (forall v, okv w h v -> v = x \/ v = y \/ v = z \/ in_image w h v).
Proof.
  intros X Y Z O. destruct X as [X|X]; [|auto]. destruct Y as [Y|Y]; [|auto]. destruct Z as [Z|Z]; [|auto]. right. intros v [V|V]; [|auto].
  assert (XY : x <> y) by (intros ->; unfold orient in O; lia). assert (XZ : x <> z) by (intros ->; unfold orient in O; lia). assert (YZ : y <> z) by (intros ->; unfold orient in O; lia).
  cbn [In verts] in *. destruct X as [<-|[<-|[<-|[]]]], Y as [<-|[<-|[<-|[]]]], Z as [<-|[<-|[<-|[]]]], V as [<-|[<-|[<-|[]]]]; try congruence; auto.
Qed.
Definition gap_size : Z := 4 * 31334400 * 31334400.
Lemma gap_size_val : gap_size = 3927378493440000. Proof. reflexivity. Qed.
Lemma prod_le i c o M A : i <= M * c -> 0 < c -> 0 < o <= A -> 0 <= M -> M * A <= gap_size -> i * o <= gap_size * c.
Proof.
  intros H C O PM L. apply Z.le_trans with (M * c * o); [apply Z.mul_le_mono_nonneg_r; lia|].
  apply Z.le_trans with (M * A * c); [|apply Z.mul_le_mono_nonneg_r; lia].
  replace (M * c * o) with (M * c * o) by ring. replace (M * A * c) with (M * c * A) by ring. apply Z.mul_le_mono_nonneg_l; [|lia]. apply Z.mul_nonneg_nonneg; lia.
Qed.
Lemma small_sized w h p V : small_size w h -> in_image w h p -> (forall v, In v V -> okv w h v) -> ears_sized p gap_size V.
Proof.
  intros T P OV a b c d Ia Ib Ic Id Da Dc O.
  pose proof (OV _ Ia) as A. pose proof (OV _ Ib) as B. pose proof (OV _ Ic) as C. pose proof (OV _ Id) as D.
  pose proof (small_n2 _ _ _ _ T A P) as NA. pose proof (small_n2 _ _ _ _ T B P) as NB. pose proof (small_n2 _ _ _ _ T C P) as NC.
  change (n2 p a <= 31334400) in NA. change (n2 p b <= 31334400) in NB. change (n2 p c <= 31334400) in NC.
  assert (AB : a <> b) by (intros ->; unfold orient in O; lia). assert (AC : a <> c) by (intros ->; unfold orient in O; lia). assert (BC : b <> c) by (intros ->; unfold orient in O; lia).
  split; intros L HP HO.
  - destruct (three_super w h b c d B C D HO) as [H|H].
    + assert (OO : orient b c d <= 31334400).
      { destruct H as [H|[H|H]]; [replace (orient b c d) with (orient c d b) by (unfold orient; ring)|replace (orient b c d) with (orient d b c) by (unfold orient; ring)|]; apply (image_orient w h); assumption. }
      apply (prod_le _ _ _ (4 * 31334400) 31334400); [|exact HP|split; assumption|lia|rewrite gap_size_val; lia].
      apply (ear_size_bc p 31334400 (2 * 31334400)); try assumption; [lia|apply dot_ab_le; [lia|assumption..]].
    + assert (IA : in_image w h a). { destruct (H a A) as [E|[E|[E|E]]]; congruence. }
      assert (OO : orient b c d <= 44236800) by (pose proof (small_orient w h b c d T B C D); lia).
      apply (prod_le _ _ _ (2 * 31334400 + 22572800) 44236800); [|exact HP|split; assumption|lia|rewrite gap_size_val; lia].
      apply (ear_size_bc p 31334400 22572800); try assumption; [lia|apply (image_dot w h); assumption].
  - destruct (three_super w h a b d A B D HO) as [H|H].
    + assert (OO : orient a b d <= 31334400).
      { destruct H as [H|[H|H]]; [replace (orient a b d) with (orient b d a) by (unfold orient; ring)|replace (orient a b d) with (orient d a b) by (unfold orient; ring)|]; apply (image_orient w h); assumption. }
      apply (prod_le _ _ _ (4 * 31334400) 31334400); [|exact HP|split; assumption|lia|rewrite gap_size_val; lia].
      apply (ear_size_ab p 31334400 (2 * 31334400)); try assumption; [lia|apply dot_ab_le; [lia|assumption..]].
    + assert (IC : in_image w h c). { destruct (H c C) as [E|[E|[E|E]]]; congruence. }
      assert (OO : orient a b d <= 44236800) by (pose proof (small_orient w h a b d T A B D); lia).
      apply (prod_le _ _ _ (2 * 31334400 + 22572800) 44236800); [|exact HP|split; assumption|lia|rewrite gap_size_val; lia].
      apply (ear_size_ab p 31334400 22572800); try assumption; [lia|apply (image_dot w h); assumption].
Qed.
Theorem small_scores w h p V : small_size w h -> in_image w h p -> (forall v, In v V -> okv w h v) -> scores_ok gap_size p V.
Proof.
  intros T P OV. pose proof (small_ok _ _ T) as S.
  assert (MX : forall x y z, In x V -> In y V -> In z V -> orient x y z <= 0 -> calculate_score x y z p = max_float64).
  { intros x y z X Y W O. unfold calculate_score. cbv zeta. rewrite (orientation_exact w h) by auto. destruct (Z.leb_spec (orient x y z) 0); [reflexivity|lia]. }
  constructor.
  - intros x y z X Y W. destruct (Z_lt_le_dec 0 (orient x y z)) as [O|O]; [apply (score_val w h); auto|]. rewrite MX by assumption. apply max_fin.
  - exact MX.
  - intros x y z X Y W O. destruct (score_val w h x y z p) as (F & _ & L); auto. rewrite flt_R by (exact F || exact max_fin). apply Rlt_bool_true.
    eapply Rle_lt_trans; [apply Rle_abs|]. eapply Rle_lt_trans; [exact L|apply max_R].
  - rewrite gap_size_val. lia.
  - apply (small_sized w h); assumption.
  - intros x y z x' y' z' X Y W X' Y' W' O O' I' I L.
    destruct (score_val w h x y z p) as (F & E & _); auto. destruct (score_val w h x' y' z' p) as (F' & E' & _); auto.
    rewrite flt_R by assumption. apply Rlt_bool_true. rewrite E, E'.
    pose proof (small_incirc w h x y z p T (OV _ X) (OV _ Y) (OV _ W) P) as BI. pose proof (small_incirc w h x' y' z' p T (OV _ X') (OV _ Y') (OV _ W') P) as BI'.
    pose proof (small_orient w h x y z T (OV _ X) (OV _ Y) (OV _ W)) as BO. pose proof (small_orient w h x' y' z' T (OV _ X') (OV _ Y') (OV _ W')) as BO'.
    set (i := incirc x y z p) in *. set (i' := incirc x' y' z' p) in *. set (o := orient x y z) in *. set (o' := orient x' y' z') in *. clearbody i i' o o'.
    rewrite !rnd_Z by lia. apply (quot_gap i o i' o' gap_size); rewrite ?gap_size_val in *; lia.
Qed.
