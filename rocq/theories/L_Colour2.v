(** The score of a triangle is the squared error of the drawn triangle (C74). *)
From Coq Require Import ZArith Reals List Bool Lia Lra Permutation.
From Flocq Require Import Core IEEE754.BinarySingleNaN.
From Verif Require Import GoNum FloatLemmas M_Norm S_Norm M_Slice M_Geom S_Geom M_Image S_Image L_Image M_Raster S_Raster M_Render L_Render M_Delaunay M_Algo M_Fitness S_Fitness L_Sums L_Var L_Bound S_Colour L_Colour.
Import ListNotations.
Open Scope R_scope.

(** * The score in float64 *)
Lemma diff_close s : (0 < s_n s <= 6876000)%Z -> (0 <= s_r s <= 255 * s_n s)%Z -> (0 <= s_g s <= 255 * s_n s)%Z -> (0 <= s_b s <= 255 * s_n s)%Z ->
  (0 <= s_sq s <= 195075 * s_n s)%Z ->
  Rabs (R64 (diff_of s) - (IZR (s_sq s) - IZR (s_r s * s_r s + s_g s * s_g s + s_b s * s_b s) / IZR (s_n s))) <= / 64.
Proof.
  intros Hn Hr Hg Hb Hq.
  unfold diff_of in *. destruct (Z.eqb_spec (s_n s) 0) as [E|E]; [lia|].
  assert (Q1 : (0 <= s_r s * s_r s <= 65025 * (s_n s * s_n s))%Z) by nia.
  assert (Q2 : (0 <= s_g s * s_g s <= 65025 * (s_n s * s_n s))%Z) by nia.
  assert (Q3 : (0 <= s_b s * s_b s <= 65025 * (s_n s * s_n s))%Z) by nia.
  assert (Q4 : (0 <= s_n s * s_n s <= 47279376000000)%Z) by nia.
  rewrite (i64_small (s_r s * s_r s)), (i64_small (s_g s * s_g s)), (i64_small (s_b s * s_b s)) by lia.
  rewrite (i64_small (_ + s_g s * s_g s)) by lia. rewrite (i64_small (_ + s_b s * s_b s)) by lia.
  set (S := (s_r s * s_r s + s_g s * s_g s + s_b s * s_b s)%Z) in *.
  assert (HS : (0 <= S < 2 ^ 63)%Z) by (unfold S; lia). assert (HS2 : (S <= 195075 * (s_n s * s_n s))%Z) by (unfold S; lia). clearbody S.
  destruct (of_Z_R (s_sq s) ltac:(lia)) as [F1 E1]. destruct (of_Z_big S ltac:(lia)) as [F2 E2]. destruct (of_Z_R (s_n s) ltac:(lia)) as [F3 E3].
  set (n := IZR (s_n s)) in *. assert (Pn : 1 <= n) by (apply IZR_le; lia). assert (Un : n <= 6876000) by (apply IZR_le; lia).
  assert (R0 : 0 <= IZR S <= 195075 * (n * n)) by (split; [apply IZR_le; lia|]; apply IZR_le in HS2; rewrite !mult_IZR in HS2; exact HS2).
  assert (RS : IZR S - n / 512 <= rnd (IZR S) <= IZR S + n / 512).
  { pose proof (rnd_rel (IZR S)) as RR. apply Rabs_le_inv in RR. rewrite (Rabs_right (IZR S)) in RR by lra.
    assert (U4 : bpow radix2 (-1075) <= / 1024) by (change (/ 1024) with (bpow radix2 (-10)); apply bpow_le; lia).
    assert (U5 : 0 < bpow radix2 (-53)) by apply bpow_gt_0. assert (U6 : bpow radix2 (-53) * 9007199254740992 = 1) by (rewrite <- (bp 53 9007199254740992) by lia; rewrite <- bpow_plus; reflexivity).
    assert (N2 : n * n <= 6876000 * n) by (apply Rmult_le_compat_r; lra).
    assert (K : bpow radix2 (-53) * IZR S <= bpow radix2 (-53) * (1341335700000 * n)) by (apply Rmult_le_compat_l; lra). set (e := bpow radix2 (-53)) in *.
    assert (e <= / 9000000000000000) by (apply Rmult_le_reg_r with 9007199254740992; lra).
    assert (e * (1341335700000 * n) <= / 9000000000000000 * (1341335700000 * n)) by (apply Rmult_le_compat_r; lra). lra. }
  set (T := rnd (IZR S)) in *.
  assert (T0 : 0 <= T) by (unfold T; rewrite <- rnd_0; apply rnd_le; lra).
  assert (D : T / n * n = T) by (unfold Rdiv; rewrite Rmult_assoc, Rinv_l; lra). assert (DS : IZR S / n * n = IZR S) by (unfold Rdiv; rewrite Rmult_assoc, Rinv_l; lra).
  set (q := T / n) in *. set (q' := IZR S / n) in *.
  assert (Q0 : 0 <= q) by (unfold q; apply Rmult_le_pos; [lra|]; apply Rlt_le, Rinv_0_lt_compat; lra).
  assert (QU : q <= 195076 * n). { apply Rmult_le_reg_r with n; [lra|]. rewrite D. nra. }
  assert (QQ : q' - / 512 <= q <= q' + / 512). { split; apply Rmult_le_reg_r with n; try lra; rewrite ?Rmult_minus_distr_r, ?Rmult_plus_distr_r, D, DS; lra. }
  assert (B : 195076 * n <= bpow radix2 41). { rewrite (bp 41 2199023255552) by lia. lra. }
  destruct (fdiv_R (f64_of_Z S) (f64_of_Z (s_n s)) F2 F3) as [F4 E4]; [rewrite E3; fold n; lra|rewrite E2, E3; fold n; fold T; fold q; rewrite Rabs_right by lra; apply Rle_trans with (bpow radix2 41); [lra|apply bpow_le; lia]|].
  rewrite E2, E3 in E4. fold n T q in E4.
  destruct (rnd_near q 41 ltac:(lia)) as [N1 N2]; [lra|].
  assert (C : bpow radix2 (41 - 54) <= / 512) by (change (/ 512) with (bpow radix2 (-9)); apply bpow_le; lia).
  assert (PQ : 0 <= IZR (s_sq s) <= 195075 * n) by (split; [apply IZR_le; lia|]; unfold n; rewrite <- mult_IZR; apply IZR_le; lia).
  assert (RQ : 0 <= rnd q) by (rewrite <- rnd_0; apply rnd_le; lra).
  assert (A : Rabs (IZR (s_sq s) - rnd q) <= bpow radix2 42) by (rewrite (bp 42 4398046511104) by lia; apply Rabs_le; lra).
  destruct (fsub_R (f64_of_Z (s_sq s)) _ F1 F4) as [_ E5].
  { rewrite E1, E4. eapply Rle_trans; [exact A|apply bpow_le; lia]. }
  rewrite E5, E1, E4. pose proof (rnd_err _ 42 ltac:(lia) A) as G. apply Rabs_le_inv in G. assert (C2 : bpow radix2 (42 - 54) <= / 512) by (change (/ 512) with (bpow radix2 (-9)); apply bpow_le; lia).
  apply Rabs_le. lra.
Qed.

(** * Variances *)
Lemma mean_range {A} (f : A -> R) l lo hi : l <> [] -> (forall a, In a l -> lo <= f a <= hi) -> lo <= mean f l <= hi.
Proof.
  intros N H. pose proof (mean_times f l N) as M. assert (P : 0 < INR (length l)) by (apply lt_0_INR; destruct l; [congruence|cbn; lia]).
  pose proof (total_le (fun _ => lo) f l (fun a I => proj1 (H a I))) as L. pose proof (total_le f (fun _ => hi) l (fun a I => proj2 (H a I))) as U. rewrite total_const in L, U.
  split; apply Rmult_le_reg_r with (INR (length l)); lra.
Qed.
Lemma mean_diff {A} (f g : A -> R) l : mean (fun a => f a - g a) l = mean f l - mean g l.
Proof.
  unfold mean. assert (E : total (fun a => f a - g a) l = total f l - total g l).
  { induction l as [|a l IH]; [cbn; lra|]. rewrite !total_cons, IH. lra. } rewrite E. unfold Rdiv. ring.
Qed.
Lemma mean_scale {A} c (f : A -> R) l : mean (fun a => c * f a) l = c * mean f l.
Proof. unfold mean. rewrite total_scale. unfold Rdiv. ring. Qed.
Lemma variance_close {A} (u k : A -> R) l e : l <> [] -> 0 <= e <= 1 -> (forall a, In a l -> - e <= u a - k a <= e) -> (forall a, In a l -> 0 <= k a <= 255) ->
  Rabs (total (fun a => (u a - mean u l) * (u a - mean u l)) l - total (fun a => (k a - mean k l) * (k a - mean k l)) l) <= INR (length l) * (1024 * e).
Proof.
  intros N He H K. pose proof (mean_range k l 0 255 N K) as MK. pose proof (mean_range (fun a => u a - k a) l (- e) e N H) as MD. rewrite mean_diff in MD.
  set (mu := mean u l) in *. set (mk := mean k l) in *. clearbody mu mk.
  rewrite <- (total_const (1024 * e) l). 
  assert (P : forall a, In a l -> - (1024 * e) <= (u a - mu) * (u a - mu) - (k a - mk) * (k a - mk) <= 1024 * e).
  { intros a I. specialize (H a I). specialize (K a I). set (b := (u a - k a) - (mu - mk)). set (c := k a - mk).
    replace ((u a - mu) * (u a - mu) - c * c) with (2 * (c * b) + b * b) by (unfold b, c; ring).
    assert (Bb : - (2 * e) <= b <= 2 * e) by (unfold b; lra). assert (Bc : - 255 <= c <= 255) by (unfold c; lra). clearbody b c. nra. }
  assert (E : total (fun a => (u a - mu) * (u a - mu)) l - total (fun a => (k a - mk) * (k a - mk)) l = total (fun a => (u a - mu) * (u a - mu) - (k a - mk) * (k a - mk)) l).
  { clear. induction l as [|a l IH]; [cbn; lra|]. rewrite !total_cons, <- IH. lra. }
  rewrite E. apply Rabs_le. split.
  - replace (- total (fun _ => 1024 * e) l) with (total (fun _ : A => - (1024 * e)) l) by (rewrite !total_const; ring). apply total_le. intros a I. apply P, I.
  - apply total_le. intros a I. apply P, I.
Qed.
Lemma variance_sums {A} (k : A -> R) l : l <> [] -> total (fun a => (k a - mean k l) * (k a - mean k l)) l = total (fun a => k a * k a) l - total k l * total k l / INR (length l).
Proof.
  intros N. pose proof (mean_times k l N) as M. pose proof (square_split k l 0 _ M) as Q.
  rewrite (total_ext (fun a => (k a - 0) * (k a - 0)) (fun a => k a * k a)) in Q by (intros; ring). rewrite Q, <- M.
  assert (P : 0 < INR (length l)) by (apply lt_0_INR; destruct l; [congruence|cbn; lia]). field. lra.
Qed.

(** The error of one channel in a colour near the mean, against the 8-bit variance. *)
Lemma channel_error {A} (v k : A -> R) l x : l <> [] -> INR (length l) <= 6876000 -> (forall a, In a l -> - / 2 ^ 46 <= 255 * v a - k a <= / 2 ^ 46) -> (forall a, In a l -> 0 <= k a <= 255) ->
  Rabs (x - mean v l) <= mean_slack (length l) ->
  Rabs (65025 * total (fun a => (v a - x) * (v a - x)) l - (total (fun a => k a * k a) l - total k l * total k l / INR (length l))) <= / 256.
Proof.
  intros N Hn H K Hx. assert (P : 0 < INR (length l)) by (apply lt_0_INR; destruct l; [congruence|cbn; lia]).
  rewrite <- variance_sums by exact N.
  pose proof (variance_close (fun a => 255 * v a) k l (/ 2 ^ 46) N ltac:(cbn; lra) H K) as VC. rewrite mean_scale in VC.
  rewrite (total_ext (fun a => (255 * v a - 255 * mean v l) * (255 * v a - 255 * mean v l)) (fun a => 65025 * ((v a - mean v l) * (v a - mean v l)))), total_scale in VC by (intros; ring).
  rewrite (square_split v l x (mean v l) (mean_times v l N)). set (V := total (fun a => (v a - mean v l) * (v a - mean v l)) l) in *. set (W := total _ l) in *.
  unfold mean_slack in Hx. set (n := INR (length l)) in *. set (m := mean v l) in *. clearbody V W n m.
  assert (S0 : 0 <= (n + 3) / 2 ^ 54 <= / 2 ^ 30) by (split; [|]; cbn; lra). set (s := (n + 3) / 2 ^ 54) in *. clearbody s. apply Rabs_le_inv in Hx.
  assert (Q : 0 <= (m - x) * (m - x) <= / 2 ^ 60). { split; [apply Rle_0_sqr|]. apply Rle_trans with (/ 2 ^ 30 * / 2 ^ 30); [|cbn; lra]. nra. }
  assert (Q2 : 0 <= n * ((m - x) * (m - x)) <= 6876000 * / 2 ^ 60) by (split; [apply Rmult_le_pos; lra|apply Rmult_le_compat; lra]).
  assert (Q3 : n * (1024 * / 2 ^ 46) <= 6876000 * (1024 * / 2 ^ 46)) by (apply Rmult_le_compat_r; cbn; lra).
  apply Rabs_le_inv in VC. apply Rabs_le. rewrite Rmult_plus_distr_l.
  assert (C1 : 6876000 * (1024 * / 2 ^ 46) <= / 1024) by (cbn; lra). assert (C2 : 65025 * (6876000 * / 2 ^ 60) <= / 1024) by (cbn; lra). lra.
Qed.

(** * The levels of an image and what is stored of it *)
Lemma level_stored gi d : (0 <= g_maxx gi)%Z -> (0 <= g_maxy gi)%Z -> conforming gi -> to_data gi = Some d -> let im := as_idata d in forall p, inside im p ->
  (forall ch pf, (ch, pf) = (cr, p_r) \/ (ch, pf) = (cg, p_g) \/ (ch, pf) = (cb, p_b) ->
     - / 2 ^ 46 <= 255 * level im ch p - IZR (pf (stored im p)) <= / 2 ^ 46 /\ 0 <= IZR (pf (stored im p)) <= 255).
Proof.
  intros Hx Hy Hc Hd im [x y] [Ix Iy] ch pf C. cbn [fst snd] in Ix, Iy.
  destruct (pixels_of_image gi Hx Hy Hc) as (d' & t & Ed & Et & HP). rewrite Hd in Ed. injection Ed as <-.
  destruct (to_data_spec gi Hx Hy Hc) as (d2 & Ed2 & Ew & Eh & _ & Hv). rewrite Hd in Ed2. injection Ed2 as <-.
  unfold im in *. cbn [as_idata i_w i_h] in Ix, Iy. rewrite Ew in Ix. rewrite Eh in Iy.
  destruct (HP x y Ix Iy) as (p & Ep & Q). destruct (Hv x y Ix Iy) as (c0 & Ec0 & U0 & Q0).
  destruct (from_image_total (as_idata d) (good_to_data gi d Hx Hy Hc Hd)) as (t' & Et' & _ & HP' & _). rewrite Et in Et'. injection Et' as <-.
  destruct (HP' x y ltac:(cbn [as_idata i_w]; lia) ltac:(cbn [as_idata i_h]; lia)) as (c & Ec & _ & Ep'). rewrite Ep in Ep'. injection Ep' as ->.
  assert (c0 = c) as -> by (change (i_at (as_idata d) x y) with (rgb_at d x y) in Ec; rewrite Ec0 in Ec; injection Ec as ->; reflexivity).
  unfold level, stored. cbn [fst snd]. rewrite Ec. pose proof (Hc x y) as Hcol. destruct (g_at gi x y) as [[r g] b]. destruct Q as ((Q1 & Q2 & Q3) & _). destruct Q0 as (L1 & L2 & L3).
  assert (K : forall z lv, (0 <= z < 65536)%Z -> R64 lv = rnd (IZR (z / 256) / 255) -> - / 2 ^ 46 <= 255 * R64 lv - IZR (z / 256) <= / 2 ^ 46 /\ 0 <= IZR (z / 256) <= 255).
  { intros z lv Hz ->. assert (Z1 : (0 <= z / 256 <= 255)%Z) by (split; [apply Z.div_pos; lia|apply Z.lt_succ_r, Z.div_lt_upper_bound; lia]).
    assert (Z2 : 0 <= IZR (z / 256) <= 255) by (split; apply IZR_le; lia). split; [|exact Z2]. set (k := IZR (z / 256)) in *. clearbody k.
    pose proof (rnd_err (k / 255) 0 ltac:(lia)) as RE. change (bpow radix2 0) with 1 in RE. rewrite Rabs_right in RE by lra. specialize (RE ltac:(lra)). change (0 - 54)%Z with (-54)%Z in RE. rewrite p54 in RE.
    apply Rabs_le_inv in RE. assert (255 * / 2 ^ 54 <= / 2 ^ 46) by (cbn; lra). assert (k = 255 * (k / 255)) by lra. lra. }
  cbn in Hcol. destruct C as [C|[C|C]]; injection C as -> ->; rewrite ?Q1, ?Q2, ?Q3; apply K; tauto || lia.
Qed.

(** * A triangle *)
Lemma score_error gi d l c : (0 <= g_maxx gi)%Z -> (0 <= g_maxy gi)%Z -> conforming gi -> to_data gi = Some d -> let im := as_idata d in Forall (inside im) l ->
  (Z.of_nat (length l) <= 6876000)%Z -> (l <> [] -> forall ch, channel ch -> Rabs (R64 (ch c) - mean (level im ch) l) <= mean_slack (length l)) ->
  let v := diff_of (pixel_sums im l) in 65025 * error_of im l c - INR (length l) - / 32 <= R64 v <= 65025 * error_of im l c + / 32.
Proof.
  intros Hx Hy Hc Hd im F Hl Hcol. destruct l as [|p0 l0].
  { cbv zeta. unfold diff_of. cbn [pixel_sums s_n length]. change (Z.of_nat 0 =? 0)%Z with true. cbv iota. rewrite f0_R. unfold error_of, sq_error, total. cbn [fold_right INR]. lra. }
  assert (N : p0 :: l0 <> []) by discriminate. set (l := p0 :: l0) in *. specialize (Hcol N). cbv zeta.
  pose proof (level_stored gi d Hx Hy Hc Hd) as LS. cbv zeta in LS. fold im in LS. rewrite Forall_forall in F.
  assert (Pn : (0 < Z.of_nat (length l))%Z) by (unfold l; cbn [length]; lia).
  assert (Rn : INR (length l) <= 6876000) by (rewrite INR_IZR_INZ; apply IZR_le; lia).
  assert (CE : forall ch pf, channel ch -> ((ch, pf) = (cr, p_r) \/ (ch, pf) = (cg, p_g) \/ (ch, pf) = (cb, p_b)) ->
    Rabs (65025 * total (fun p => (level im ch p - R64 (ch c)) * (level im ch p - R64 (ch c))) l -
      (total (fun p => IZR (pf (stored im p)) * IZR (pf (stored im p))) l - total (fun p => IZR (pf (stored im p))) l * total (fun p => IZR (pf (stored im p))) l / INR (length l))) <= / 256).
  { intros ch pf C D. apply channel_error; try assumption.
    - intros p I. apply (LS p (F p I) ch pf D).
    - intros p I. apply (LS p (F p I) ch pf D).
    - apply Hcol, C. }
  pose proof (CE cr p_r (or_introl eq_refl) (or_introl eq_refl)) as C1. pose proof (CE cg p_g (or_intror (or_introl eq_refl)) (or_intror (or_introl eq_refl))) as C2.
  pose proof (CE cb p_b (or_intror (or_intror eq_refl)) (or_intror (or_intror eq_refl))) as C3. clear CE Hcol.
  unfold error_of. rewrite sq_error_split.
  set (X1 := total (fun p => (level im cr p - _) * _) l) in *. set (X2 := total (fun p => (level im cg p - _) * _) l) in *. set (X3 := total (fun p => (level im cb p - _) * _) l) in *. clearbody X1 X2 X3.
  assert (Zr : forall pf, (forall p, inside im p -> 0 <= pf (stored im p) <= 255)%Z -> (0 <= sum_over (fun p => pf (stored im p)) l <= 255 * Z.of_nat (length l))%Z).
  { intros pf H. rewrite <- (sum_over_const 255 l). split.
    - replace 0%Z with (sum_over (fun _ : Z * Z => 0%Z) l) at 1 by (rewrite sum_over_const; lia). apply sum_over_le. intros p I. apply H, F, I.
    - apply sum_over_le. intros p I. apply H, F, I. }
  assert (Hr : forall p, inside im p -> (0 <= p_r (stored im p) <= 255)%Z) by (intros p I; destruct (LS p I cr p_r (or_introl eq_refl)) as [_ [A B]]; split; apply le_IZR; assumption).
  assert (Hg : forall p, inside im p -> (0 <= p_g (stored im p) <= 255)%Z) by (intros p I; destruct (LS p I cg p_g (or_intror (or_introl eq_refl))) as [_ [A B]]; split; apply le_IZR; assumption).
  assert (Hb : forall p, inside im p -> (0 <= p_b (stored im p) <= 255)%Z) by (intros p I; destruct (LS p I cb p_b (or_intror (or_intror eq_refl))) as [_ [A B]]; split; apply le_IZR; assumption).
  assert (SQ : forall p, inside im p -> (exact_sq (stored im p) - 1 <= p_sq (stored im p) <= exact_sq (stored im p))%Z) by (intros [x y] I; exact (stored_conforming gi d x y Hx Hy Hc Hd I)).
  assert (SQ0 : forall p, inside im p -> (0 <= p_sq (stored im p))%Z).
  { intros p I. destruct p as [x y]. unfold stored. destruct (i_at im (fst (x, y)) (snd (x, y))) as [cc|]; [|cbn; lia]. cbn [to_pixel p_sq]. unfold go_u32, u32, wrapu. apply Z.mod_pos_bound. lia. }
  assert (K : (sum_over (fun p => exact_sq (stored im p)) l - Z.of_nat (length l) <= sum_over (fun p => p_sq (stored im p)) l <= sum_over (fun p => exact_sq (stored im p)) l)%Z).
  { split; [|apply sum_over_le; intros p I; apply SQ, F, I].
    enough (sum_over (fun p => exact_sq (stored im p)) l <= sum_over (fun p => p_sq (stored im p)) l + Z.of_nat (length l))%Z by lia.
    replace (Z.of_nat (length l)) with (sum_over (fun _ : Z * Z => 1%Z) l) by (rewrite sum_over_const; lia). rewrite <- sum_over_plus. apply sum_over_le. intros p I. pose proof (SQ p (F p I)). lia. }
  assert (K0 : (0 <= sum_over (fun p => p_sq (stored im p)) l <= 195075 * Z.of_nat (length l))%Z).
  { split.
    - replace 0%Z with (sum_over (fun _ : Z * Z => 0%Z) l) at 1 by (rewrite sum_over_const; lia). apply sum_over_le. intros p I. apply SQ0, F, I.
    - rewrite <- (sum_over_const 195075 l). apply sum_over_le. intros p I. specialize (F p I). pose proof (SQ p F) as W. pose proof (Hr p F). pose proof (Hg p F). pose proof (Hb p F). unfold exact_sq in W. nia. }
  assert (Zr1 := Zr p_r Hr). assert (Zr2 := Zr p_g Hg). assert (Zr3 := Zr p_b Hb).
  pose proof (diff_close (pixel_sums im l) ltac:(cbn [pixel_sums s_n]; lia) Zr1 Zr2 Zr3 K0) as DC. cbn [pixel_sums s_n s_r s_g s_b s_sq] in DC.
  assert (TI : forall f : Z * Z -> Z, total (fun p => IZR (f p)) l = IZR (sum_over f l)) by (intros f; apply total_IZR).
  assert (TS : forall pf : pixel -> Z, total (fun p => IZR (pf (stored im p)) * IZR (pf (stored im p))) l = IZR (sum_over (fun p => pf (stored im p) * pf (stored im p))%Z l)).
  { intros pf. rewrite <- TI. apply total_ext. intros p _. rewrite mult_IZR. reflexivity. }
  assert (XS : sum_over (fun p => exact_sq (stored im p)) l = (sum_over (fun p => p_r (stored im p) * p_r (stored im p)) l + sum_over (fun p => p_g (stored im p) * p_g (stored im p)) l + sum_over (fun p => p_b (stored im p) * p_b (stored im p)) l)%Z) by (unfold exact_sq; rewrite !sum_over_plus; reflexivity).
  rewrite (TS p_r), (TI (fun p => p_r (stored im p))) in C1. rewrite (TS p_g), (TI (fun p => p_g (stored im p))) in C2. rewrite (TS p_b), (TI (fun p => p_b (stored im p))) in C3. rewrite XS in K. clear XS TS TI Zr Zr1 Zr2 Zr3 Hr Hg Hb SQ SQ0 LS F K0. rewrite INR_IZR_INZ in *. rewrite !plus_IZR, !mult_IZR in DC. rewrite <- !INR_IZR_INZ in *.
  set (v := R64 (diff_of (pixel_sums im l))) in *. set (q := sum_over (fun p => p_sq (stored im p)) l) in *. clearbody v.
  set (Sr := IZR (sum_over (fun p => p_r (stored im p)) l)) in *. set (Sg := IZR (sum_over (fun p => p_g (stored im p)) l)) in *. set (Sb := IZR (sum_over (fun p => p_b (stored im p)) l)) in *.
  set (Qr := sum_over (fun p => p_r (stored im p) * p_r (stored im p))%Z l) in *. set (Qg := sum_over (fun p => p_g (stored im p) * p_g (stored im p))%Z l) in *. set (Qb := sum_over (fun p => p_b (stored im p) * p_b (stored im p))%Z l) in *.
  destruct K as [K1 K2]. apply IZR_le in K1. apply IZR_le in K2. rewrite minus_IZR, !plus_IZR, <- INR_IZR_INZ in K1. rewrite !plus_IZR in K2.
  replace ((Sr * Sr + Sg * Sg + Sb * Sb) / INR (length l)) with (Sr * Sr / INR (length l) + Sg * Sg / INR (length l) + Sb * Sb / INR (length l)) in DC by (unfold Rdiv; ring).
  apply Rabs_le_inv in C1. apply Rabs_le_inv in C2. apply Rabs_le_inv in C3. apply Rabs_le_inv in DC.
  set (D1 := Sr * Sr / INR (length l)) in *. set (D2 := Sg * Sg / INR (length l)) in *. set (D3 := Sb * Sb / INR (length l)) in *. clearbody D1 D2 D3. lra.
Qed.
