(** polygonPointIntersect (C83). *)
From Coq Require Import ZArith Reals List Bool Arith Lia Lra Psatz.
From Flocq Require Import Core IEEE754.BinarySingleNaN.
From Verif Require Import GoNum FloatLemmas M_Norm M_Slice M_Geom S_Geom M_Image M_Raster S_Raster M_Delaunay S_Delaunay M_Voronoi S_Voronoi S_Corner L_PMap L_Geom L_Voronoi L_Voronoi2.
Import ListNotations.
Open Scope Z_scope.

Definition dcross (point a b : fpoint) : f64 :=
  fsub (fmul (fsub (nx point) (nx a)) (fsub (ny b) (ny a))) (fmul (fsub (ny point) (ny a)) (fsub (nx b) (nx a))).

Section Scan.
  Context (polygon : list fpoint) (point : fpoint).
  Definition none_from (i : nat) (bad : f64 -> bool) : Prop := forall j a b, (i <= j)%nat -> side_at polygon j a b -> bad (dcross point a b) = false.
  Lemma scan_side i : (i < length polygon)%nat -> exists a b, side_at polygon i a b /\ znth polygon (Z.of_nat i) = Some a /\ znth polygon ((Z.of_nat i + 1) mod Z.of_nat (length polygon)) = Some b.
  Proof.
    intros H. replace ((Z.of_nat i + 1) mod Z.of_nat (length polygon)) with (Z.of_nat (S i mod length polygon)) by (rewrite Nat2Z.inj_mod; f_equal; lia).
    rewrite !znth_nat. assert (H' : (S i mod length polygon < length polygon)%nat) by (apply Nat.mod_upper_bound; lia).
    destruct (nth_error polygon i) as [a|] eqn:Ea; [|apply nth_error_None in Ea; lia]. destruct (nth_error polygon (S i mod length polygon)) as [b|] eqn:Eb; [|apply nth_error_None in Eb; lia].
    exists a, b. repeat split; assumption.
  Qed.
  Lemma none_next i a b bad : side_at polygon i a b -> none_from i bad <-> bad (dcross point a b) = false /\ none_from (S i) bad.
  Proof.
    intros S. split.
    - intros H. split; [eapply H; [|exact S]; lia|]. intros j x y L. apply H. lia.
    - intros [H0 H] j x y L S'. destruct (Nat.eq_dec j i) as [->|N]; [|apply (H j); [lia|exact S']]. destruct S as [S1 S2], S' as [S3 S4]. replace x with a by congruence. replace y with b by congruence. exact H0.
  Qed.
  Lemma scan_true : forall n i pos neg, (i + n = length polygon)%nat -> 0 <= pos -> 0 <= neg ->
    (neg = 0 /\ none_from i (fun d => flt d f0)) \/ (pos = 0 /\ none_from i (fun d => flt f0 d)) -> point_intersect_from polygon point pos neg (Z.of_nat i) n = true.
  Proof.
    induction n as [|n IH]; intros i pos neg L HP HN H; cbn [point_intersect_from]; [reflexivity|].
    destruct (scan_side i ltac:(lia)) as (a & b & S & E1 & E2). rewrite E1, E2. destruct (npeq a point); [reflexivity|]. cbv zeta. fold (dcross point a b).
    rewrite !(none_next i a b) in H by exact S. replace (Z.of_nat i + 1) with (Z.of_nat (Datatypes.S i)) by lia.
    destruct H as [(-> & D & H)|(-> & D & H)]; rewrite D.
    - rewrite andb_false_r. apply IH; try lia; [destruct (flt f0 _); lia|left; auto].
    - cbn [Z.ltb Z.compare andb]. apply IH; try lia; [destruct (flt _ f0); lia|right; auto].
  Qed.
  Lemma scan_iff : (forall a, In a polygon -> npeq a point = false) -> forall n i pos neg, (i + n = length polygon)%nat -> 0 <= pos -> 0 <= neg -> pos = 0 \/ neg = 0 ->
    point_intersect_from polygon point pos neg (Z.of_nat i) n = true -> (neg = 0 /\ none_from i (fun d => flt d f0)) \/ (pos = 0 /\ none_from i (fun d => flt f0 d)).
  Proof.
    intros NV. induction n as [|n IH]; intros i pos neg L HP HN H0; cbn [point_intersect_from].
    - intros _. assert (V : forall bad, none_from i bad) by (intros bad j a b Lj [Ej _]; exfalso; assert (j < length polygon)%nat by (apply nth_error_Some; congruence); lia). destruct H0; auto.
    - destruct (scan_side i ltac:(lia)) as (a & b & S & E1 & E2). rewrite E1, E2. rewrite (NV a) by (eapply nth_error_In; apply S). cbv zeta. fold (dcross point a b).
      rewrite !(none_next i a b) by exact S. replace (Z.of_nat i + 1) with (Z.of_nat (Datatypes.S i)) by lia.
      destruct (flt f0 (dcross point a b)) eqn:P, (flt (dcross point a b) f0) eqn:N.
      + replace ((0 <? pos + 1) && (0 <? neg + 1)) with true by (symmetry; rewrite andb_true_iff, !Z.ltb_lt; lia). discriminate.
      + destruct (Z.ltb_spec 0 (pos + 1)) as [_|]; [|lia]. destruct (Z.ltb_spec 0 neg); [discriminate|]. cbn [andb]. intros E. apply IH in E; try lia. destruct E as [(-> & E)|(E & _)]; [left; auto|lia].
      + destruct (Z.ltb_spec 0 (neg + 1)) as [_|]; [|lia]. destruct (Z.ltb_spec 0 pos); [discriminate|]. cbn [andb]. intros E. apply IH in E; try lia. destruct E as [(E & _)|(-> & E)]; [lia|right; auto].
      + destruct ((0 <? pos) && (0 <? neg)) eqn:B; [discriminate|]. intros E. apply IH in E; try lia. destruct E as [(-> & E)|(-> & E)]; [left|right]; auto.
  Qed.
  Lemma intersect_true : none_from 0 (fun d => flt d f0) \/ none_from 0 (fun d => flt f0 d) -> polygon_point_intersect polygon point = true.
  Proof. intros H. apply (scan_true _ 0 0 0); [reflexivity|lia|lia|]. destruct H; auto. Qed.
  Lemma intersect_iff : (forall a, In a polygon -> npeq a point = false) -> polygon_point_intersect polygon point = true -> none_from 0 (fun d => flt d f0) \/ none_from 0 (fun d => flt f0 d).
  Proof. intros NV E. destruct (scan_iff NV _ 0 0 0 eq_refl ltac:(lia) ltac:(lia) ltac:(auto) E) as [[_ H]|[_ H]]; auto. Qed.
End Scan.

(** * Whole coordinates *)
Definition small_pt (p : point) : Prop := Z.abs (px p) <= 2 ^ 24 /\ Z.abs (py p) <= 2 ^ 24.
Lemma zsub x y a b : fin x -> fin y -> R64 x = IZR a -> R64 y = IZR b -> Z.abs (a - b) <= 2 ^ 53 -> fin (fsub x y) /\ R64 (fsub x y) = IZR (a - b).
Proof.
  intros Fx Fy Ex Ey H. destruct (fsub_R x y Fx Fy) as [F E].
  - rewrite Ex, Ey, <- minus_IZR, <- abs_IZR. apply Rle_trans with (bpow radix2 53); [apply IZR_le; exact H|apply bpow_le; lia].
  - split; [exact F|]. rewrite E, Ex, Ey, <- minus_IZR. apply rnd_Z, H.
Qed.
Lemma zmul x y a b : fin x -> fin y -> R64 x = IZR a -> R64 y = IZR b -> Z.abs (a * b) <= 2 ^ 53 -> fin (fmul x y) /\ R64 (fmul x y) = IZR (a * b).
Proof.
  intros Fx Fy Ex Ey H. destruct (fmul_R x y Fx Fy) as [F E].
  - rewrite Ex, Ey, <- mult_IZR, <- abs_IZR. apply Rle_trans with (bpow radix2 53); [apply IZR_le; exact H|apply bpow_le; lia].
  - split; [exact F|]. rewrite E, Ex, Ey, <- mult_IZR. apply rnd_Z, H.
Qed.
Lemma prod_le a b : Z.abs a <= 2 ^ 25 -> Z.abs b <= 2 ^ 25 -> Z.abs (a * b) <= 2 ^ 50.
Proof. intros A B. rewrite Z.abs_mul. change (2 ^ 50) with (2 ^ 25 * 2 ^ 25). apply Z.mul_le_mono_nonneg; lia. Qed.
Lemma dcross_Z p a b : small_pt p -> small_pt a -> small_pt b -> fin (dcross (fpt p) (fpt a) (fpt b)) /\ R64 (dcross (fpt p) (fpt a) (fpt b)) = IZR (- orient a b p).
Proof.
  intros [P1 P2] [A1 A2] [B1 B2]. unfold dcross, fpt. cbn [nx ny].
  assert (V : forall z, Z.abs z <= 2 ^ 24 -> fin (f64_of_Z z) /\ R64 (f64_of_Z z) = IZR z) by (intros z Hz; apply of_Z_R; lia).
  destruct (V _ P1) as [F1 E1], (V _ P2) as [F2 E2], (V _ A1) as [F3 E3], (V _ A2) as [F4 E4], (V _ B1) as [F5 E5], (V _ B2) as [F6 E6].
  destruct (zsub _ _ _ _ F1 F3 E1 E3 ltac:(lia)) as [G1 H1]. destruct (zsub _ _ _ _ F6 F4 E6 E4 ltac:(lia)) as [G2 H2]. destruct (zsub _ _ _ _ F2 F4 E2 E4 ltac:(lia)) as [G3 H3]. destruct (zsub _ _ _ _ F5 F3 E5 E3 ltac:(lia)) as [G4 H4].
  pose proof (prod_le (px p - px a) (py b - py a) ltac:(lia) ltac:(lia)) as L1. pose proof (prod_le (py p - py a) (px b - px a) ltac:(lia) ltac:(lia)) as L2.
  destruct (zmul _ _ _ _ G1 G2 H1 H2 ltac:(lia)) as [K1 M1]. destruct (zmul _ _ _ _ G3 G4 H3 H4 ltac:(lia)) as [K2 M2].
  destruct (zsub _ _ _ _ K1 K2 M1 M2 ltac:(lia)) as [F E]. split; [exact F|]. rewrite E. f_equal. unfold orient. ring.
Qed.
Lemma flt_neg p a b : small_pt p -> small_pt a -> small_pt b -> flt (dcross (fpt p) (fpt a) (fpt b)) f0 = false <-> orient a b p <= 0.
Proof.
  intros P A B. destruct (dcross_Z p a b P A B) as [F E]. rewrite flt_R by (exact F || reflexivity). rewrite E. change (R64 f0) with (IZR 0).
  split; [intros H; destruct (Rlt_bool_spec (IZR (- orient a b p)) (IZR 0)) as [|L]; [discriminate|apply le_IZR in L; lia]|intros H; apply Rlt_bool_false, IZR_le; lia].
Qed.
Lemma flt_pos p a b : small_pt p -> small_pt a -> small_pt b -> flt f0 (dcross (fpt p) (fpt a) (fpt b)) = false <-> 0 <= orient a b p.
Proof.
  intros P A B. destruct (dcross_Z p a b P A B) as [F E]. rewrite flt_R by (exact F || reflexivity). rewrite E. change (R64 f0) with (IZR 0).
  split; [intros H; destruct (Rlt_bool_spec (IZR 0) (IZR (- orient a b p))) as [|L]; [discriminate|apply le_IZR in L; lia]|intros H; apply Rlt_bool_false, IZR_le; lia].
Qed.
Lemma npeq_fpt a p : small_pt a -> small_pt p -> npeq (fpt a) (fpt p) = true <-> a = p.
Proof.
  intros [A1 A2] [P1 P2]. assert (V : forall z, Z.abs z <= 2 ^ 24 -> fin (f64_of_Z z) /\ R64 (f64_of_Z z) = IZR z) by (intros z Hz; apply of_Z_R; lia).
  destruct (V _ P1) as [F1 E1], (V _ P2) as [F2 E2], (V _ A1) as [F3 E3], (V _ A2) as [F4 E4]. rewrite npeq_R by (split; assumption). unfold fpt. cbn [nx ny]. rewrite E1, E2, E3, E4.
  split; [intros [H1 H2]; apply eq_IZR in H1, H2; destruct a, p; cbn in *; congruence|intros ->; auto].
Qed.
Lemma side_map poly j a b : side_at (map fpt poly) j a b <-> exists x y, side_at poly j x y /\ a = fpt x /\ b = fpt y.
Proof.
  unfold side_at. rewrite map_length, !nth_error_map. split.
  - destruct (nth_error poly j) as [x|]; [|intros [[=] _]]. destruct (nth_error poly (S j mod length poly)) as [y|]; [|intros [_ [=]]]. cbn. intros [[= <-] [= <-]]. exists x, y. auto.
  - intros (x & y & [-> ->] & -> & ->). auto.
Qed.

(** * The sum over the sides is twice the area, wherever it is seen from *)
Definition ring (poly : list point) : list (point * point) := match poly with [] => [] | p :: t => combine poly (t ++ [p]) end.
Lemma nth_combine {A B} (l : list A) : forall (k : list B) j, nth_error (combine l k) j = match nth_error l j, nth_error k j with Some a, Some b => Some (a, b) | _, _ => None end.
Proof.
  induction l as [|a l IH]; intros [|b k] [|j]; cbn [combine nth_error]; try reflexivity; [destruct (nth_error l j); reflexivity|apply IH].
Qed.
Lemma ring_side poly a b : In (a, b) (ring poly) <-> exists j, side_at poly j a b.
Proof.
  destruct poly as [|p t]; [split; [intros []|intros (j & E & _); destruct j; discriminate]|]. unfold ring, side_at.
  assert (N : forall j, (j < length (p :: t))%nat -> nth_error (t ++ [p]) j = nth_error (p :: t) (S j mod length (p :: t))).
  { intros j L. cbn [length] in *. destruct (Nat.eq_dec j (length t)) as [->|NE].
    - rewrite Nat.mod_same by lia. rewrite nth_error_app2, Nat.sub_diag by lia. reflexivity.
    - rewrite Nat.mod_small by lia. rewrite nth_error_app1 by lia. reflexivity. }
  split.
  - intros I. apply In_nth_error in I. destruct I as (j & E). rewrite nth_combine in E. exists j. destruct (nth_error (p :: t) j) as [x|] eqn:Ex; [|discriminate].
    rewrite N in E by (apply nth_error_Some; congruence). destruct (nth_error (p :: t) (S j mod length (p :: t))); [|discriminate]. injection E as -> ->. auto.
  - intros (j & E1 & E2). apply nth_error_In with j. rewrite nth_combine, N, E1, E2 by (apply nth_error_Some; congruence). reflexivity.
Qed.
Definition zsum (l : list Z) : Z := fold_right Z.add 0 l.
Lemma zsum_app l k : zsum (l ++ k) = zsum l + zsum k.
Proof. induction l as [|x l IH]; cbn [app zsum fold_right] in *; [reflexivity|]. unfold zsum in *. cbn. rewrite IH. lia. Qed.
Lemma zsum_combine (f : point -> Z) l : forall k, length l = length k -> zsum (map (fun e => f (snd e) - f (fst e)) (combine l k)) = zsum (map f k) - zsum (map f l).
Proof. induction l as [|a l IH]; intros [|b k] L; try discriminate; [reflexivity|]. cbn [combine map fst snd]. unfold zsum in *. cbn [fold_right]. rewrite IH by (cbn in L; congruence). lia. Qed.
Lemma ring_closed f poly : zsum (map (fun e => f (snd e) - f (fst e)) (ring poly)) = 0.
Proof.
  destruct poly as [|p t]; [reflexivity|]. unfold ring. rewrite zsum_combine by (cbn [length]; rewrite app_length; cbn; lia). rewrite map_app, zsum_app. cbn [map]. unfold zsum. cbn [fold_right]. lia.
Qed.
Definition turn (poly : list point) (p : point) : Z := zsum (map (fun e => orient (fst e) (snd e) p) (ring poly)).
Lemma turn_same poly p v : turn poly p = turn poly v.
Proof.
  assert (G : forall l, zsum (map (fun e : point * point => orient (fst e) (snd e) p) l) = zsum (map (fun e => orient (fst e) (snd e) v) l)
    + (py p - py v) * zsum (map (fun e => px (snd e) - px (fst e)) l) - (px p - px v) * zsum (map (fun e => py (snd e) - py (fst e)) l)).
  { induction l as [|[a b] l IH]; [cbn; lia|]. unfold zsum in *. cbn [map fold_right fst snd]. rewrite IH.
    assert (E : orient a b p = orient a b v + (py p - py v) * (px b - px a) - (px p - px v) * (py b - py a)) by (unfold orient; ring). rewrite E. ring. }
  unfold turn. rewrite (G (ring poly)), (ring_closed px), (ring_closed py). lia.
Qed.
Lemma zsum_signs (f : point * point -> Z) l : (forall e, In e l -> 0 <= f e) -> 0 <= zsum (map f l) /\ ((exists e, In e l /\ 0 < f e) -> 0 < zsum (map f l)).
Proof.
  induction l as [|e l IH]; intros H; unfold zsum in *; cbn [map fold_right]; [split; [lia|intros (e & [] & _)]|]. destruct (IH (fun x I => H x (or_intror I))) as [A B]. pose proof (H e (or_introl eq_refl)).
  split; [lia|]. intros (x & [<-|I] & P); [lia|]. assert (0 < fold_right Z.add 0 (map f l)) by (apply B; exists x; auto). lia.
Qed.
Lemma zsum_scale s (f : point * point -> Z) l : zsum (map (fun e => s * f e) l) = s * zsum (map f l).
Proof. unfold zsum. induction l as [|e l IH]; cbn [map fold_right]; [lia|]. rewrite IH. lia. Qed.
(** No point is on the wrong side of every side. *)
Lemma not_all_wrong s poly p : convex s poly -> ~ (forall j a b, side_at poly j a b -> s * orient a b p <= 0).
Proof.
  intros [C (j & a & b & v & Sj & Iv & P)] W.
  destruct (zsum_signs (fun e => s * orient (fst e) (snd e) v) (ring poly)) as [_ A].
  { intros [x y] I. apply ring_side in I. destruct I as (i & Si). apply (C i x y v Si Iv). }
  assert (A' : 0 < zsum (map (fun e => s * orient (fst e) (snd e) v) (ring poly))) by (apply A; exists (a, b); split; [apply ring_side; exists j; exact Sj|exact P]).
  destruct (zsum_signs (fun e => - s * orient (fst e) (snd e) p) (ring poly)) as [B _].
  { intros [x y] I. apply ring_side in I. destruct I as (i & Si). cbn [fst snd]. specialize (W i x y Si). lia. }
  rewrite (zsum_scale s (fun e => orient (fst e) (snd e) v)) in A'. rewrite (zsum_scale (- s) (fun e => orient (fst e) (snd e) p)) in B. fold (turn poly v) in A'. fold (turn poly p) in B. rewrite (turn_same poly p v) in B. lia.
Qed.

Theorem in_polygon s poly p : s = 1 \/ s = -1 -> Forall small_pt poly -> small_pt p -> convex s poly -> polygon_point_intersect (map fpt poly) (fpt p) = true <-> in_convex s poly p.
Proof.
  intros Hs F Hp C. rewrite Forall_forall in F.
  assert (SM : forall j a b, side_at poly j a b -> small_pt a /\ small_pt b) by (intros j a b [A B]; split; apply F; eapply nth_error_In; eassumption).
  assert (NN : none_from (map fpt poly) (fpt p) 0 (fun d => flt d f0) <-> forall j a b, side_at poly j a b -> orient a b p <= 0).
  { split; intros H j a b.
    - intros S. destruct (SM j a b S). apply flt_neg; try assumption. apply (H j); [lia|]. apply side_map. exists a, b. auto.
    - intros _ S. apply side_map in S. destruct S as (x & y & S & -> & ->). destruct (SM j x y S). apply flt_neg; try assumption. apply (H j x y S). }
  assert (NP : none_from (map fpt poly) (fpt p) 0 (fun d => flt f0 d) <-> forall j a b, side_at poly j a b -> 0 <= orient a b p).
  { split; intros H j a b.
    - intros S. destruct (SM j a b S). apply flt_pos; try assumption. apply (H j); [lia|]. apply side_map. exists a, b. auto.
    - intros _ S. apply side_map in S. destruct S as (x & y & S & -> & ->). destruct (SM j x y S). apply flt_pos; try assumption. apply (H j x y S). }
  split.
  - intros E. destruct (in_dec point_eq_dec p poly) as [I|NI]; [intros j a b S; apply (proj1 C j a b p S I)|].
    apply intersect_iff in E.
    + pose proof (not_all_wrong s poly p C) as W. destruct E as [E|E]; [rewrite NN in E|rewrite NP in E]; intros j a b S; specialize (E j a b S) as E'; destruct Hs as [-> | ->]; try lia; exfalso; apply W; intros j' a' b' S'; specialize (E j' a' b' S'); lia.
    + intros a I. apply in_map_iff in I. destruct I as (x & <- & I). apply not_true_iff_false. intros Q. apply npeq_fpt in Q; [subst; contradiction|apply F, I|exact Hp].
  - intros H. apply intersect_true. destruct Hs as [-> | ->]; [right; apply NP|left; apply NN]; intros j a b S; specialize (H j a b S); lia.
Qed.

(** * Any coordinates, with a margin *)
Open Scope R_scope.
Lemma moderate_fin p : moderate p -> fpfin p. Proof. intros (A & B & _). split; assumption. Qed.
Lemma msub x y : fin x -> fin y -> Rabs (R64 x) <= 8192 -> Rabs (R64 y) <= 8192 -> fin (fsub x y) /\ Rabs (R64 (fsub x y) - (R64 x - R64 y)) <= / 1099511627776 /\ Rabs (R64 x - R64 y) <= 16384.
Proof.
  intros Fx Fy Bx By. apply Rabs_le_inv in Bx, By. assert (B : Rabs (R64 x - R64 y) <= bpow radix2 14) by (change (bpow radix2 14) with 16384; apply Rabs_le; lra).
  destruct (fsub_R x y Fx Fy) as [F E]; [eapply Rle_trans; [exact B|apply bpow_le; lia]|]. split; [exact F|]. rewrite E. split; [|exact B].
  pose proof (rnd_err _ 14 ltac:(lia) B) as K. change (bpow radix2 (14 - 54)) with (/ 1099511627776) in K. exact K.
Qed.
Lemma mmul x y u v : fin x -> fin y -> Rabs (R64 x - u) <= / 1099511627776 -> Rabs (R64 y - v) <= / 1099511627776 -> Rabs u <= 16384 -> Rabs v <= 16384 ->
  fin (fmul x y) /\ Rabs (R64 (fmul x y) - u * v) <= / 16000000 /\ Rabs (u * v) <= 268435456.
Proof.
  intros Fx Fy Dx Dy Bu Bv. set (a := R64 x) in *. set (b := R64 y) in *.
  assert (E0 : a * b - u * v = (a - u) * (b - v) + u * (b - v) + (a - u) * v) by ring.
  assert (M1 : Rabs ((a - u) * (b - v)) <= / 1099511627776 * / 1099511627776) by (rewrite Rabs_mult; apply Rmult_le_compat; auto using Rabs_pos).
  assert (M2 : Rabs (u * (b - v)) <= 16384 * / 1099511627776) by (rewrite Rabs_mult; apply Rmult_le_compat; auto using Rabs_pos).
  assert (M3 : Rabs ((a - u) * v) <= / 1099511627776 * 16384) by (rewrite Rabs_mult; apply Rmult_le_compat; auto using Rabs_pos).
  assert (M4 : Rabs (u * v) <= 16384 * 16384) by (rewrite Rabs_mult; apply Rmult_le_compat; auto using Rabs_pos).
  apply Rabs_le_inv in M1, M2, M3. pose proof (Rabs_le_inv _ _ M4) as M4'. assert (B : Rabs (a * b) <= bpow radix2 29) by (change (bpow radix2 29) with 536870912; apply Rabs_le; lra).
  destruct (fmul_R x y Fx Fy) as [F E]; [eapply Rle_trans; [exact B|apply bpow_le; lia]|]. split; [exact F|]. fold a b in E. rewrite E. split; [|eapply Rle_trans; [exact M4|lra]].
  pose proof (rnd_err _ 29 ltac:(lia) B) as K. change (bpow radix2 (29 - 54)) with (/ 33554432) in K. apply Rabs_le_inv in K. apply Rabs_le. lra.
Qed.
Lemma dcross_near p a b : moderate p -> moderate a -> moderate b -> fin (dcross p a b) /\ Rabs (R64 (dcross p a b) + left_of a b p) <= / 4194304.
Proof.
  intros (Fp1 & Fp2 & Bp1 & Bp2) (Fa1 & Fa2 & Ba1 & Ba2) (Fb1 & Fb2 & Bb1 & Bb2). unfold dcross.
  destruct (msub _ _ Fp1 Fa1 Bp1 Ba1) as (G1 & D1 & B1). destruct (msub _ _ Fb2 Fa2 Bb2 Ba2) as (G2 & D2 & B2). destruct (msub _ _ Fp2 Fa2 Bp2 Ba2) as (G3 & D3 & B3). destruct (msub _ _ Fb1 Fa1 Bb1 Ba1) as (G4 & D4 & B4).
  destruct (mmul _ _ _ _ G1 G2 D1 D2 B1 B2) as (F1 & E1 & C1). destruct (mmul _ _ _ _ G3 G4 D3 D4 B3 B4) as (F2 & E2 & C2).
  unfold left_of. cbv zeta. set (x := fmul (fsub (nx p) (nx a)) (fsub (ny b) (ny a))) in *. set (y := fmul (fsub (ny p) (ny a)) (fsub (nx b) (nx a))) in *.
  apply Rabs_le_inv in E1, E2, C1, C2. assert (B : Rabs (R64 x - R64 y) <= bpow radix2 30) by (change (bpow radix2 30) with 1073741824; apply Rabs_le; lra).
  destruct (fsub_R x y F1 F2) as [F E]; [eapply Rle_trans; [exact B|apply bpow_le; lia]|]. split; [exact F|]. rewrite E. pose proof (rnd_err _ 30 ltac:(lia) B) as K. change (bpow radix2 (30 - 54)) with (/ 16777216) in K. apply Rabs_le_inv in K. apply Rabs_le. lra.
Qed.
