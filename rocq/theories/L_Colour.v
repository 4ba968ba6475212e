(** Proofs about rendered colours (C74). *)
From Coq Require Import ZArith Reals List Bool Lia Lra Permutation.
From Flocq Require Import Core IEEE754.BinarySingleNaN.
From Verif Require Import GoNum FloatLemmas M_Norm S_Norm M_Geom S_Geom M_Raster S_Raster M_Image S_Image L_Image M_Render L_Render S_Colour.
Import ListNotations.
Open Scope R_scope.

(** * Sums of reals *)
Section Total.
Context {A : Type}.
Lemma total_cons (f : A -> R) a l : total f (a :: l) = f a + total f l.
Proof. reflexivity. Qed.
Lemma total_app (f : A -> R) l k : total f (l ++ k) = total f l + total f k.
Proof. induction l as [|a l IH]; cbn [app]; rewrite ?total_cons; [cbn; lra|]. rewrite IH. lra. Qed.
Lemma total_ext (f g : A -> R) l : (forall a, In a l -> f a = g a) -> total f l = total g l.
Proof. induction l as [|a l IH]; intros H; [reflexivity|]. rewrite !total_cons, (H a (or_introl eq_refl)), IH; [reflexivity|]. intros; apply H; now right. Qed.
Lemma total_le (f g : A -> R) l : (forall a, In a l -> f a <= g a) -> total f l <= total g l.
Proof. induction l as [|a l IH]; intros H; [cbn; lra|]. rewrite !total_cons. pose proof (H a (or_introl eq_refl)). assert (total f l <= total g l) by (apply IH; intros; apply H; now right). lra. Qed.
Lemma total_plus (f g : A -> R) l : total (fun a => f a + g a) l = total f l + total g l.
Proof. induction l as [|a l IH]; [cbn; lra|]. rewrite !total_cons, IH. lra. Qed.
Lemma total_scale c (f : A -> R) l : total (fun a => c * f a) l = c * total f l.
Proof. induction l as [|a l IH]; [cbn; lra|]. rewrite !total_cons, IH. lra. Qed.
Lemma total_const c (l : list A) : total (fun _ => c) l = INR (length l) * c.
Proof. induction l as [|a l IH]; [cbn; lra|]. rewrite total_cons, IH. cbn [length]. rewrite S_INR. lra. Qed.
Lemma total_perm (f : A -> R) l k : Permutation l k -> total f l = total f k.
Proof. induction 1; rewrite ?total_cons; lra. Qed.
(** The squared distance from [x], by the mean. *)
Lemma square_split (f : A -> R) l x m : m * INR (length l) = total f l ->
  total (fun a => (f a - x) * (f a - x)) l = total (fun a => (f a - m) * (f a - m)) l + INR (length l) * ((m - x) * (m - x)).
Proof.
  intros M. assert (E : forall y, total (fun a => (f a - y) * (f a - y)) l = total (fun a => f a * f a) l - 2 * y * total f l + INR (length l) * (y * y)).
  { intros y. rewrite <- (total_const (y * y) l). rewrite <- (total_scale (2 * y) f l). induction l as [|a l IH]; [cbn; lra|].
    rewrite !total_cons. assert (IH' := IH). clear IH.
    assert (K : forall k : list A, total (fun a => (f a - y) * (f a - y)) k = total (fun a => f a * f a) k - total (fun a => 2 * y * f a) k + total (fun _ => y * y) k).
    { induction k as [|b k IHk]; [cbn; lra|]. rewrite !total_cons, IHk. lra. } rewrite K. lra. }
  rewrite !E, <- M. ring.
Qed.
Lemma total_nonneg (f : A -> R) l : (forall a, In a l -> 0 <= f a) -> 0 <= total f l.
Proof. intros H. pose proof (total_le (fun _ => 0) f l H) as K. rewrite total_const in K. lra. Qed.
End Total.
Lemma total_map {A B} (g : A -> B) (f : B -> R) l : total f (map g l) = total (fun a => f (g a)) l.
Proof. induction l as [|a l IH]; [reflexivity|]. cbn [map]. rewrite !total_cons, IH. reflexivity. Qed.
Lemma total_IZR {A} (f : A -> Z) l : total (fun a => IZR (f a)) l = IZR (fold_right (fun a s => (f a + s)%Z) 0%Z l).
Proof. induction l as [|a l IH]; [reflexivity|]. rewrite total_cons, IH. cbn [fold_right]. rewrite plus_IZR. reflexivity. Qed.
Lemma mean_times {A} (f : A -> R) l : l <> [] -> mean f l * INR (length l) = total f l.
Proof.
  intros H. unfold mean. rewrite <- INR_IZR_INZ. assert (0 < INR (length l)) by (apply lt_0_INR; destruct l; [congruence|cbn; lia]).
  unfold Rdiv. rewrite Rmult_assoc, Rinv_l by lra. lra.
Qed.

(** * The sum in float64 *)
Lemma channel_fold ch cs : channel ch -> forall a, ch (a_rgb (fold_left avg_add cs a)) = fold_left fadd (map ch cs) (ch (a_rgb a)).
Proof. intros C. induction cs as [|c cs IH]; intros a; [reflexivity|]. cbn [fold_left map]. rewrite IH. f_equal. destruct C as [->|[->| ->]]; reflexivity. Qed.
Lemma channel_average ch a : channel ch -> ch (avg_average a) = fdiv (ch (a_rgb a)) (f64_of_Z (a_count a)).
Proof. intros [->|[->| ->]]; reflexivity. Qed.
Lemma channel_unit ch c : channel ch -> rgb_unit c -> in_unit (ch c).
Proof. intros [->|[->| ->]] (A & B & C); assumption. Qed.

Lemma p54 : bpow radix2 (-54) = / 2 ^ 54.
Proof. cbn. lra. Qed.
Lemma sum_err l : forall x k s, (0 <= k)%Z -> (k + Z.of_nat (length l) < 2 ^ 53)%Z -> sums_ok k x -> Forall in_unit l ->
  Rabs (R64 x - s) <= IZR (k * (k + 2)) * bpow radix2 (-54) ->
  let n := (k + Z.of_nat (length l))%Z in sums_ok n (fold_left fadd l x) /\ Rabs (R64 (fold_left fadd l x) - (s + total (fun v => R64 v) l)) <= IZR (n * (n + 2)) * bpow radix2 (-54).
Proof.
  induction l as [|v l IH]; intros x k s Hk Hn Sx F E; cbv zeta.
  - cbn [fold_left length]. change (Z.of_nat 0) with 0%Z. rewrite Z.add_0_r. unfold total. cbn [fold_right]. rewrite Rplus_0_r. auto.
  - inversion F as [|? ? Fv F']; subst. cbn [fold_left length] in *. rewrite Nat2Z.inj_succ in *.
    pose proof (sums_step k x v ltac:(lia) Sx Fv) as Sx'. replace (k + Z.succ (Z.of_nat (length l)))%Z with (k + 1 + Z.of_nat (length l))%Z by lia.
    rewrite total_cons, <- Rplus_assoc. apply (IH (fadd x v) (k + 1)%Z (s + R64 v) ltac:(lia) ltac:(lia) Sx' F').
    destruct Sx as [Fx Bx]. destruct Fv as [Fv Bv].
    destruct (fadd_R x v Fx Fv) as [_ Ea].
    { apply Rabs_le. assert (IZR k <= bpow radix2 53) by (rewrite bpow_IZR by lia; apply IZR_le; lia). assert (bpow radix2 53 + 1 <= bpow radix2 1023).
      { apply Rle_trans with (bpow radix2 54); [rewrite !bpow_IZR by lia; rewrite <- plus_IZR; apply IZR_le; lia|apply bpow_le; lia]. } lra. }
    rewrite Ea. pose proof (rnd_rel (R64 x + R64 v)) as RR. rewrite (Rabs_right (R64 x + R64 v)) in RR by lra.
    assert (U : bpow radix2 (-1075) <= bpow radix2 (-54)) by (apply bpow_le; lia).
    assert (V : bpow radix2 (-53) = 2 * bpow radix2 (-54)) by (change (-53)%Z with (1 + -54)%Z; rewrite bpow_plus; reflexivity).
    assert (P : 0 < bpow radix2 (-54)) by apply bpow_gt_0. set (e := bpow radix2 (-54)) in *. rewrite V in RR.
    assert (W : 2 * e * (R64 x + R64 v) <= 2 * e * (IZR k + 1)) by (apply Rmult_le_compat_l; lra).
    replace (IZR ((k + 1) * (k + 1 + 2)) * e) with (IZR (k * (k + 2)) * e + (2 * e * (IZR k + 1) + e)) by (rewrite !mult_IZR, !plus_IZR; ring).
    replace (rnd (R64 x + R64 v) - (s + R64 v)) with ((rnd (R64 x + R64 v) - (R64 x + R64 v)) + (R64 x - s)) by ring.
    eapply Rle_trans; [apply Rabs_triang|]. lra.
Qed.
Lemma average_err cs ch : channel ch -> (1 <= Z.of_nat (length cs) < 2 ^ 53)%Z -> Forall rgb_unit cs ->
  Rabs (R64 (ch (avg_average (fold_left avg_add cs avg0))) - mean (fun c => R64 (ch c)) cs) <= mean_slack (length cs).
Proof.
  intros C Hn F. destruct (average_ok cs Hn F) as [Ec _]. rewrite channel_average, Ec, channel_fold by exact C.
  assert (E0 : ch (a_rgb avg0) = f0) by (destruct C as [->|[->| ->]]; reflexivity). rewrite E0.
  assert (S0 : sums_ok 0 f0) by (split; [reflexivity|]; rewrite f0_R; lra).
  assert (Fu : Forall in_unit (map ch cs)) by (apply Forall_map; eapply Forall_impl; [|exact F]; intros c; apply channel_unit, C).
  destruct (sum_err (map ch cs) f0 0 0 ltac:(lia) ltac:(rewrite map_length; lia) S0 Fu) as [Sn En]; [rewrite f0_R, Rminus_0_r, Rabs_R0; cbn; lra|].
  rewrite map_length, Z.add_0_l in Sn, En. rewrite Rplus_0_l, total_map in En. unfold mean, mean_slack.
  set (n := Z.of_nat (length cs)) in *. rewrite INR_IZR_INZ. fold n. set (T := total _ cs) in *. destruct (of_Z_R n ltac:(lia)) as [Fn Rn].
  set (v := fold_left fadd (map ch cs) f0) in *. destruct Sn as [Fv Bv]. assert (P : 1 <= IZR n) by (apply IZR_le; lia).
  assert (Q : 0 <= R64 v / IZR n <= 1).
  { split; [apply Rmult_le_pos; [lra|]; left; apply Rinv_0_lt_compat; lra|].
    apply Rmult_le_reg_r with (IZR n); [lra|]. unfold Rdiv. rewrite Rmult_assoc, Rinv_l by lra. lra. }
  destruct (fdiv_R v (f64_of_Z n) Fv Fn) as [_ Ed]; [rewrite Rn; lra|rewrite Rn, Rabs_right by lra; apply Rle_trans with (bpow radix2 0); [change (bpow radix2 0) with 1; lra|apply bpow_le; lia]|].
  rewrite Ed, Rn. pose proof (rnd_err (R64 v / IZR n) 0 ltac:(lia)) as RE. change (bpow radix2 0) with 1 in RE. rewrite (Rabs_right (R64 v / IZR n)) in RE by lra. specialize (RE (proj2 Q)).
  change (0 - 54)%Z with (-54)%Z in RE. assert (Pe : 0 < bpow radix2 (-54)) by apply bpow_gt_0. unfold Rdiv at 3. rewrite <- p54. set (e := bpow radix2 (-54)) in *.
  assert (Dv : Rabs (R64 v / IZR n - T / IZR n) <= IZR (n + 2) * e).
  { replace (R64 v / IZR n - T / IZR n) with ((R64 v - T) * / IZR n) by (unfold Rdiv; ring). rewrite Rabs_mult, (Rabs_right (/ IZR n)) by (left; apply Rinv_0_lt_compat; lra).
    apply Rle_trans with (IZR (n * (n + 2)) * e * / IZR n); [apply Rmult_le_compat_r; [left; apply Rinv_0_lt_compat; lra|exact En]|].
    rewrite mult_IZR. right. field. lra. }
  replace (rnd (R64 v / IZR n) - T / IZR n) with ((rnd (R64 v / IZR n) - R64 v / IZR n) + (R64 v / IZR n - T / IZR n)) by ring.
  eapply Rle_trans; [apply Rabs_triang|]. rewrite plus_IZR in Dv. lra.
Qed.

(** * The colour of a shape *)
Lemma level_mean im ch l cs : Forall2 (fun p c => i_at im (fst p) (snd p) = Some c) l cs -> mean (level im ch) l = mean (fun c => R64 (ch c)) cs /\ length l = length cs.
Proof.
  intros F. assert (total (level im ch) l = total (fun c => R64 (ch c)) cs /\ length l = length cs) as [E L].
  { induction F as [|p c l cs H F [IH IL]]; [split; reflexivity|]. rewrite !total_cons, IH. unfold level at 1. rewrite H. cbn [length]. auto. }
  unfold mean. rewrite E, L. auto.
Qed.
Lemma pixels_color im l : good_image im -> Forall (inside im) l -> (1 <= Z.of_nat (length l) < 2 ^ 53)%Z ->
  exists a, add_pixels im avg0 l = Some a /\ a_count a = Z.of_nat (length l) /\ forall ch, channel ch -> Rabs (R64 (ch (avg_average a)) - mean (level im ch) l) <= mean_slack (length l).
Proof.
  intros G F HL. destruct (add_pixels_ok im l G F avg0) as (cs & E & L & U & M). exists (fold_left avg_add cs avg0). split; [exact E|].
  split; [rewrite <- L; apply average_ok; [rewrite L; exact HL|exact U]|]. intros ch C. destruct (level_mean im ch l cs M) as [-> ->]. apply average_err; [exact C| |exact U]. rewrite L. exact HL.
Qed.
Lemma shape_color im pix vs : good_image im -> (1 <= i_w im)%Z -> (1 <= i_h im)%Z -> Forall (inside im) pix -> (Z.of_nat (length pix) < 2 ^ 53)%Z ->
  vs <> [] -> (Z.of_nat (length vs) < 2 ^ 53)%Z -> Forall (vertex_inside im) vs ->
  exists a c, add_pixels im avg0 pix = Some a /\ (if (a_count a =? 0)%Z then add_vertices im a vs else Some a) = Some c /\
    let l := sampled im pix vs in l <> [] /\ Forall (inside im) l /\ forall ch, channel ch -> Rabs (R64 (ch (avg_average c)) - mean (level im ch) l) <= mean_slack (length l).
Proof.
  intros G Hw Hh F HL Hv HLv Fv. destruct pix as [|p pix].
  - exists avg0. pose proof (vertices_inside im vs Hw Hh Fv) as Fi. unfold add_vertices.
    assert (Em : map (fun p => (go_min (px p) (i_w im - 1), go_min (py p) (i_h im - 1))) vs = sampled im [] vs) by (unfold sampled; apply map_ext; intros q; rewrite !go_min_spec; reflexivity).
    rewrite Em in *. assert (Lv : length (sampled im [] vs) = length vs) by apply map_length.
    destruct (pixels_color im _ G Fi) as (c & E & _ & K). { rewrite Lv. destruct vs; [congruence|]. cbn [length] in *. lia. }
    exists c. split; [reflexivity|]. split; [exact E|]. cbv zeta. split; [|split; [exact Fi|exact K]]. destruct vs; [congruence|discriminate].
  - destruct (pixels_color im (p :: pix) G F) as (a & E & Ca & K). { cbn [length] in *. lia. }
    exists a, a. split; [exact E|]. rewrite Ca. destruct (Z.eqb_spec (Z.of_nat (length (p :: pix))) 0) as [N|N]; [cbn [length] in N; lia|].
    split; [reflexivity|]. cbv zeta. split; [discriminate|]. split; [exact F|exact K].
Qed.
Lemma triangle_color im t : good_image im -> (1 <= i_w im <= 2 ^ 24)%Z -> (1 <= i_h im <= 2 ^ 24)%Z -> Forall (vertex_inside im) (verts t) ->
  exists d, triangle_on_image im t = Some d /\ td_tri d = tri_to_norm (i_w im) (i_h im) t /\
    let l := sampled im (dda_pixels t) (verts t) in l <> [] /\ Forall (inside im) l /\ forall ch, channel ch -> Rabs (R64 (ch (td_color d)) - mean (level im ch) l) <= mean_slack (length l).
Proof.
  intros G Hw Hh F. assert (HB : in_box 24 t). { intros p Hp. rewrite Forall_forall in F. specialize (F p Hp). unfold vertex_inside in F. lia. }
  destruct (shape_color im (dda_pixels t) (verts t)) as (a & c & E1 & E2 & U); auto; try lia.
  { apply tri_pixels_inside; auto; lia. } { pose proof (dda_pixels_length t HB). lia. } { discriminate. } { cbn; lia. }
  exists (TD (tri_to_norm (i_w im) (i_h im) t) (avg_average c)). unfold triangle_on_image. rewrite E1. unfold verts in E2. rewrite E2. auto.
Qed.

(** * The colour is the closest *)
Lemma nearest {A} (f : A -> R) l x y e : l <> [] -> Rabs (x - mean f l) <= e -> total (fun a => (f a - x) * (f a - x)) l <= total (fun a => (f a - y) * (f a - y)) l + INR (length l) * (e * e).
Proof.
  intros N H. pose proof (mean_times f l N) as M. rewrite (square_split f l x _ M), (square_split f l y _ M). set (m := mean f l) in *.
  assert (0 <= INR (length l)) by apply pos_INR. assert (0 <= (m - y) * (m - y)) by apply Rle_0_sqr.
  assert (Q : (m - x) * (m - x) <= e * e). { apply Rabs_le_inv in H. nra. }
  assert (INR (length l) * ((m - x) * (m - x)) <= INR (length l) * (e * e)) by (apply Rmult_le_compat_l; lra).
  assert (0 <= INR (length l) * ((m - y) * (m - y))) by (apply Rmult_le_pos; lra). lra.
Qed.
Lemma sq_error_split im l r g b : sq_error im l r g b = total (fun p => (level im cr p - r) * (level im cr p - r)) l + total (fun p => (level im cg p - g) * (level im cg p - g)) l + total (fun p => (level im cb p - b) * (level im cb p - b)) l.
Proof. unfold sq_error. rewrite <- !total_plus. reflexivity. Qed.
Lemma color_nearest im l c r g b : l <> [] -> (forall ch, channel ch -> Rabs (R64 (ch c) - mean (level im ch) l) <= mean_slack (length l)) ->
  error_of im l c <= sq_error im l r g b + 3 * INR (length l) * (mean_slack (length l) * mean_slack (length l)).
Proof.
  intros N H. unfold error_of. rewrite !sq_error_split.
  pose proof (nearest (level im cr) l _ r _ N (H cr (or_introl eq_refl))). pose proof (nearest (level im cg) l _ g _ N (H cg (or_intror (or_introl eq_refl)))).
  pose proof (nearest (level im cb) l _ b _ N (H cb (or_intror (or_intror eq_refl)))). lra.
Qed.
