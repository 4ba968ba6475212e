(** A location is spanned by the vertices of the cell it lies in; covering by the rounded
    cells (C82). *)
From Coq Require Import ZArith Reals List Bool Lia Lra Psatz.
From Flocq Require Import Core IEEE754.BinarySingleNaN.
From Verif Require Import GoNum FloatLemmas M_Norm M_Geom S_Geom M_Raster S_Raster M_Delaunay S_Delaunay M_Voronoi S_Voronoi M_Polygons S_Cover
  L_Raster1 L_Raster6 L_Plane L_BW L_Circle L_F32 L_Geom L_VorGeo L_Hull L_Voronoi2.
Import ListNotations.
Open Scope Z_scope.

(* ---------------------------------------------------------------- *)
(** * The exact cell *)
Definition cc_m (a b c : point) : Z := 2 * orient a b c.
Definition sq (a b : point) : Z := (px b - px a) * (px b - px a) + (py b - py a) * (py b - py a).
Definition cc_X (a b c : point) : Z := cc_m a b c * px a + ((py c - py a) * sq a b - (py b - py a) * sq a c).
Definition cc_Y (a b c : point) : Z := cc_m a b c * py a + ((px b - px a) * sq a c - (px c - px a) * sq a b).
Lemma cc_centred t : 0 < orient (ta t) (tb t) (tc t) -> centred t (cc_X (ta t) (tb t) (tc t)) (cc_Y (ta t) (tb t) (tc t)) (cc_m (ta t) (tb t) (tc t)).
Proof.
  intros H. split; [unfold cc_m; lia|]. unfold sdist2, cc_X, cc_Y, cc_m, sq, orient. split; ring.
Qed.

(** The bisector with [a]. *)
Lemma half_plane q a X Y M : sdist2 X Y M a - sdist2 X Y M q = M * (M * (px a * px a + py a * py a - px q * px q - py q * py q) - 2 * ((px a - px q) * X + (py a - py q) * Y)).
Proof. unfold sdist2. ring. Qed.
Lemma towards q a X Y M X' Y' M' : 0 < M -> 0 < M' -> sdist2 X Y M q <= sdist2 X Y M a -> sdist2 X' Y' M' a = sdist2 X' Y' M' q ->
  0 <= dot (px a - px q, py a - py q) (X' * M - X * M', Y' * M - Y * M').
Proof.
  intros HM HM' L E. pose proof (half_plane q a X Y M) as B. pose proof (half_plane q a X' Y' M') as B'. rewrite E, Z.sub_diag in B'.
  set (k := px a * px a + py a * py a - px q * px q - py q * py q) in *. unfold dot. cbn [fst snd].
  set (u := (px a - px q) * X + (py a - py q) * Y) in *. set (u' := (px a - px q) * X' + (py a - py q) * Y') in *.
  assert (A : 0 <= M * k - 2 * u) by nia. assert (A' : M' * k - 2 * u' = 0) by nia.
  replace ((px a - px q) * (X' * M - X * M') + (py a - py q) * (Y' * M - Y * M')) with (M * u' - M' * u) by (unfold u, u'; ring).
  assert (E2 : 2 * (M * u' - M' * u) = M' * (M * k - 2 * u)) by (replace (2 * u') with (M' * k) by lia; transitivity (M * (2 * u') - M' * (2 * u)); [ring|]; replace (2 * u') with (M' * k) by lia; ring).
  assert (0 <= M' * (M * k - 2 * u)) by (apply Z.mul_nonneg_nonneg; lia). lia.
Qed.

(** A vertex of the cell, with the vector from the location (X/M, Y/M) to it, scaled. *)
Definition vertex_vec (sites : list point) (q : point) (X Y M : Z) (v : vec) : Prop :=
  exists X' Y' M', voronoi_vertex sites q X' Y' M' /\ v = (X' * M - X * M', Y' * M - Y * M').
Lemma cell_spanned s P T q X Y M : delaunay_tiling s P T -> inner s q -> In q (verts s ++ P) -> nearest_to (verts s ++ P) q X Y M ->
  exists k, 0 < k /\ comb (vertex_vec (verts s ++ P) q X Y M) k 0 0.
Proof.
  intros DT IP Iq [HM N]. pose proof (t_pos _ _ (dt_tiling _ _ _ DT)) as PT. rewrite Forall_forall in PT.
  set (at_q := fun t : tri => existsb (fun v => if point_eq_dec v q then true else false) (verts t)).
  assert (AQ : forall t, at_q t = true <-> In q (verts t)).
  { intros t. unfold at_q. rewrite existsb_exists. split; [intros (v & I & E); destruct (point_eq_dec v q); [subst; exact I|discriminate]|intros I; exists q; split; [exact I|destruct (point_eq_dec q q); congruence]]. }
  set (vv := fun t : tri => let X' := cc_X (ta t) (tb t) (tc t) in let Y' := cc_Y (ta t) (tb t) (tc t) in let M' := cc_m (ta t) (tb t) (tc t) in (X' * M - X * M', Y' * M - Y * M')).
  destruct (separation (map vv (filter at_q T))) as [(k & Hk & K)|(u & U)].
  - exists k. split; [exact Hk|]. eapply comb_weaken; [|exact K]. intros v I. apply in_map_iff in I. destruct I as (t & <- & I). apply filter_In in I. destruct I as [I V]. apply AQ in V.
    exists (cc_X (ta t) (tb t) (tc t)), (cc_Y (ta t) (tb t) (tc t)), (cc_m (ta t) (tb t) (tc t)). split; [|reflexivity]. eapply triangle_vertex; eauto. apply cc_centred. apply PT, I.
  - exfalso. destruct u as [ux uy]. destruct (step_triangle s P T q (- ux) (- uy) DT IP Iq) as (t & a & b & It & Vq & Va & Vb & O & C1 & C2).
    specialize (U (vv t) (in_map vv _ _ (proj2 (filter_In _ _ _) (conj It (proj2 (AQ t) Vq))))). 
    pose proof (cc_centred t (PT t It)) as (HM' & Eb & Ec). unfold vv in U. cbv zeta in U.
    set (X' := cc_X (ta t) (tb t) (tc t)) in *. set (Y' := cc_Y (ta t) (tb t) (tc t)) in *. set (M' := cc_m (ta t) (tb t) (tc t)) in *.
    assert (EQ : forall v, In v (verts t) -> sdist2 X' Y' M' v = sdist2 X' Y' M' (ta t)) by (intros v [<-|[<-|[<-|[]]]]; auto).
    assert (DV : forall v, In v (verts t) -> In v (verts s ++ P)) by (intros v Iv; eapply (dt_verts _ _ _ DT t); eauto).
    pose proof (towards q a X Y M X' Y' M' HM HM' (N a (DV a Va)) (eq_trans (EQ a Va) (eq_sym (EQ q Vq)))) as Ta.
    pose proof (towards q b X Y M X' Y' M' HM HM' (N b (DV b Vb)) (eq_trans (EQ b Vb) (eq_sym (EQ q Vq)))) as Tb.
    set (d := (X' * M - X * M', Y' * M - Y * M')) in *.
    assert (E : orient q a b * dot (- ux, - uy) d = cross (- ux, - uy) (px b - px q, py b - py q) * dot (px a - px q, py a - py q) d + cross (px a - px q, py a - py q) (- ux, - uy) * dot (px b - px q, py b - py q) d).
    { unfold orient, dot, cross. cbn [fst snd]. ring. }
    assert (E' : dot (- ux, - uy) d = - dot (ux, uy) d) by (unfold dot; cbn [fst snd]; ring). rewrite E' in E.
    pose proof (Z.mul_nonneg_nonneg _ _ C2 Ta). pose proof (Z.mul_nonneg_nonneg _ _ C1 Tb). nia.
Qed.

(* ---------------------------------------------------------------- *)
(** * Convex combinations of real locations *)
Open Scope R_scope.
Definition total {A} (f : A -> R) (l : list A) : R := fold_right (fun e s => f e + s) 0 l.
(** Weighted locations with the property [P]. *)
Definition spread (P : R -> R -> Prop) (k x y : R) : Prop :=
  exists l : list (R * (R * R)), Forall (fun e => 0 <= fst e /\ P (fst (snd e)) (snd (snd e))) l /\
    total fst l = k /\ total (fun e => fst e * fst (snd e)) l = x /\ total (fun e => fst e * snd (snd e)) l = y.
Lemma spread_scale P k x y c : 0 <= c -> spread P k x y -> spread P (c * k) (c * x) (c * y).
Proof.
  intros Hc (l & F & <- & <- & <-). exists (map (fun e => (c * fst e, snd e)) l). split.
  - apply Forall_forall. intros e I. apply in_map_iff in I. destruct I as (e0 & <- & I). rewrite Forall_forall in F. destruct (F e0 I). cbn [fst snd]. split; [apply Rmult_le_pos; assumption|assumption].
  - clear F. repeat split; induction l as [|e l IH]; cbn [map total fold_right fst snd] in *; try lra; fold (total (A:=R*(R*R))) in *; unfold total in *; cbn [fold_right]; rewrite IH; ring.
Qed.

(** The vertices of the cell as real locations. *)
Definition vertex_at (sites : list point) (q : point) (x y : R) : Prop :=
  exists X Y M, voronoi_vertex sites q X Y M /\ x = IZR X / IZR M /\ y = IZR Y / IZR M.
Lemma comb_spread sites q X Y M k x y : (0 < M)%Z -> comb (vertex_vec sites q X Y M) k x y -> (0 <= k)%Z /\ exists K, (0 < k -> 0 < K)%Z /\ (0 <= K)%Z /\
  spread (vertex_at sites q) (IZR K) (IZR x / IZR M + IZR K * (IZR X / IZR M)) (IZR y / IZR M + IZR K * (IZR Y / IZR M)).
Proof.
  intros HM C. assert (PM : 0 < IZR M) by (apply IZR_lt; exact HM).
  induction C as [|w p s x y (X' & Y' & M' & VV & ->) Hw C (Hs & K & K1 & K2 & l & F & S1 & S2 & S3)].
  - split; [lia|]. exists 0%Z. split; [lia|]. split; [lia|]. exists []. split; [constructor|]. cbn. unfold Rdiv. repeat split; ring.
  - split; [lia|]. pose proof (proj1 VV) as HM'. assert (PM' : 0 < IZR M') by (apply IZR_lt; exact HM'). exists (K + w * M')%Z. split; [intros; destruct (Z.eq_dec w 0); [subst; lia|nia]|]. split; [nia|].
    exists ((IZR (w * M'), (IZR X' / IZR M', IZR Y' / IZR M')) :: l). split; [constructor; [|exact F]|].
    + cbn [fst snd]. split; [apply IZR_le; nia|]. exists X', Y', M'. auto.
    + unfold total in *. cbn [fold_right fst snd]. rewrite S1, S2, S3. rewrite !plus_IZR, !mult_IZR, !minus_IZR, !mult_IZR. repeat split; [ring| |]; field; lra.
Qed.
Theorem cell_mix s P T q X Y M : delaunay_tiling s P T -> inner s q -> In q (verts s ++ P) -> nearest_to (verts s ++ P) q X Y M ->
  spread (vertex_at (verts s ++ P) q) 1 (IZR X / IZR M) (IZR Y / IZR M).
Proof.
  intros DT IP Iq N. destruct (cell_spanned s P T q X Y M DT IP Iq N) as (k & Hk & C). pose proof (proj1 N) as HM. destruct (comb_spread _ _ _ _ _ _ _ _ HM C) as (_ & K & K1 & K2 & S).
  specialize (K1 Hk). assert (PK : 0 < IZR K) by (apply IZR_lt; exact K1). assert (PM : 0 < IZR M) by (apply IZR_lt; exact HM).
  apply (spread_scale _ _ _ _ (/ IZR K)) in S; [|apply Rlt_le, Rinv_0_lt_compat, PK].
  replace 1 with (/ IZR K * IZR K) by (field; lra).
  replace (IZR X / IZR M) with (/ IZR K * (0 / IZR M + IZR K * (IZR X / IZR M))) by (field; lra).
  replace (IZR Y / IZR M) with (/ IZR K * (0 / IZR M + IZR K * (IZR Y / IZR M))) by (field; lra). exact S.
Qed.

(** * From locations to the corners of a polygon *)
Lemma weighted_nil f poly : weighted f [] poly = 0. Proof. reflexivity. Qed.
Lemma put_weight (poly : list point) p a : In p poly -> 0 <= a -> exists ws, length ws = length poly /\ Forall (fun a => 0 <= a) ws /\ fold_right Rplus 0 ws = a /\
  forall f, weighted f ws poly = a * IZR (f p).
Proof.
  assert (ZW : forall l : list point, Forall (fun a => 0 <= a) (repeat 0 (length l)) /\ fold_right Rplus 0 (repeat 0 (length l)) = 0 /\ forall f, weighted f (repeat 0 (length l)) l = 0).
  { unfold weighted. induction l as [|x l (A & B & C)]; cbn; [repeat split; constructor|]. split; [constructor; [lra|exact A]|]. split; [rewrite B; ring|]. intros f. rewrite C. ring. }
  intros I Ha. induction poly as [|x l IH]; [destruct I|]. destruct I as [->|I].
  - exists (a :: repeat 0 (length l)). destruct (ZW l) as (A & B & C). split; [cbn; rewrite repeat_length; reflexivity|]. split; [constructor; assumption|]. split; [cbn; rewrite B; ring|].
    intros f. unfold weighted in *. cbn [combine fold_right fst snd]. rewrite C. ring.
  - destruct (IH I) as (ws & L & F & S & W). exists (0 :: ws). split; [cbn; congruence|]. split; [constructor; [lra|exact F]|]. split; [cbn; rewrite S; ring|]. intros f. unfold weighted in *. cbn [combine fold_right fst snd]. rewrite W. ring.
Qed.
Lemma add_weights (poly : list point) : forall ws1 ws2, length ws1 = length poly -> length ws2 = length poly -> Forall (fun a => 0 <= a) ws1 -> Forall (fun a => 0 <= a) ws2 ->
  exists ws, length ws = length poly /\ Forall (fun a => 0 <= a) ws /\ fold_right Rplus 0 ws = fold_right Rplus 0 ws1 + fold_right Rplus 0 ws2 /\ forall f, weighted f ws poly = weighted f ws1 poly + weighted f ws2 poly.
Proof.
  unfold weighted. induction poly as [|p l IH]; intros [|a ws1] [|b ws2] L1 L2 F1 F2; try discriminate.
  - exists []. cbn. repeat split; try constructor; intros; ring.
  - inversion F1 as [|? ? Fa F1']; subst. inversion F2 as [|? ? Fb F2']; subst. destruct (IH ws1 ws2) as (ws & L & F & S & W); auto. exists (a + b :: ws). split; [cbn; congruence|].
    split; [constructor; [lra|exact F]|]. cbn [fold_right combine fst snd]. split; [rewrite S; ring|]. intros f. rewrite W. ring.
Qed.
(** Each location is at most [e] away from a corner: so is the combination from the hull. *)
Lemma spread_hull (P : R -> R -> Prop) e poly : (forall x y, P x y -> exists p, In p poly /\ Rabs (x - IZR (px p)) <= e /\ Rabs (y - IZR (py p)) <= e) ->
  forall k x y, spread P k x y -> exists ws, length ws = length poly /\ Forall (fun a => 0 <= a) ws /\ fold_right Rplus 0 ws = k /\ Rabs (x - weighted px ws poly) <= k * e /\ Rabs (y - weighted py ws poly) <= k * e.
Proof.
  intros H k x y (l & F & <- & <- & <-). induction l as [|[a [u v]] l IH].
  - exists (repeat 0 (length poly)). assert (Z0 : Forall (fun a => 0 <= a) (repeat 0 (length poly)) /\ fold_right Rplus 0 (repeat 0 (length poly)) = 0 /\ forall f, weighted f (repeat 0 (length poly)) poly = 0).
    { unfold weighted. induction poly as [|z t IHt]; cbn; [repeat split; constructor|]. clear H. assert (IH' : Forall (fun a => 0 <= a) (repeat 0 (length t)) /\ fold_right Rplus 0 (repeat 0 (length t)) = 0 /\ forall f, fold_right (fun wp s => fst wp * IZR (f (snd wp)) + s) 0 (combine (repeat 0 (length t)) t) = 0).
      { clear. induction t as [|z t (A & B & C)]; cbn; [repeat split; constructor|]. split; [constructor; [lra|exact A]|]. split; [rewrite B; ring|]. intros f. rewrite C. ring. }
      destruct IH' as (A & B & C). split; [constructor; [lra|exact A]|]. split; [rewrite B; ring|]. intros f. rewrite C. ring. }
    destruct Z0 as (A & B & C). rewrite !C. split; [apply repeat_length|]. split; [exact A|]. split; [exact B|]. cbn. rewrite !Rminus_0_r, Rabs_R0. lra.
  - inversion F as [|? ? [Fa Fp] F']; subst. cbn [fst snd] in Fa, Fp. destruct (IH F') as (ws & L & Fw & S & B1 & B2). destruct (H u v Fp) as (p & Ip & D1 & D2).
    destruct (put_weight poly p a Ip Fa) as (ws1 & L1 & F1 & S1 & W1). destruct (add_weights poly ws1 ws L1 L F1 Fw) as (ws2 & L2 & F2 & S2 & W2).
    exists ws2. split; [exact L2|]. split; [exact F2|]. unfold total in *. cbn [fold_right fst snd]. split; [rewrite S2, S1, S; reflexivity|]. rewrite !W2, !W1.
    apply Rabs_le_inv in D1, D2, B1, B2. pose proof (Rmult_le_compat_l a _ _ Fa (proj1 D1)). pose proof (Rmult_le_compat_l a _ _ Fa (proj2 D1)).
    pose proof (Rmult_le_compat_l a _ _ Fa (proj1 D2)). pose proof (Rmult_le_compat_l a _ _ Fa (proj2 D2)). split; apply Rabs_le; split; lra.
Qed.
Lemma spread_near (P : R -> R -> Prop) e poly x y : (forall x y, P x y -> exists p, In p poly /\ Rabs (x - IZR (px p)) <= e /\ Rabs (y - IZR (py p)) <= e) -> spread P 1 x y -> near_hull e x y poly.
Proof.
  intros H S. destruct (spread_hull P e poly H 1 x y S) as (ws & L & F & E & B1 & B2). exists (weighted px ws poly), (weighted py ws poly). rewrite Rmult_1_l in B1, B2. split; [|split; assumption].
  exists ws. auto.
Qed.

(* ---------------------------------------------------------------- *)
(** * Rounding *)
Lemma rounded_near x : 0 <= x <= 1920 -> Rabs (rounded x - x) <= 0.00007.
Proof.
  intros H. change (rounded x) with (rnd32 (rnd x)).
  assert (B : Rabs x <= bpow radix2 11) by (change (bpow radix2 11) with 2048; apply Rabs_le; lra).
  pose proof (rnd_err x 11 ltac:(lia) B) as E1. assert (B' : Rabs (rnd x) <= bpow radix2 11) by (apply rnd_abs_le; [lia|exact B]).
  pose proof (rnd32_err (rnd x) 11 ltac:(lia) B') as E2. apply Rabs_le_inv in E1, E2.
  assert (C1 : bpow radix2 (11 - 54) <= / 1000000) by (change (bpow radix2 (11 - 54)) with (/ 8796093022208); lra).
  change (bpow radix2 (11 - 25)) with (/ 16384) in E2. apply Rabs_le. split; lra.
Qed.
Lemma round_near x : fin x -> 0 <= R64 x <= 1920 -> Rabs (R64 x - IZR (go_int (fround x))) <= / 2.
Proof.
  intros F B. rewrite (go_int_fround x F) by (split; [lra|apply Rle_trans with 1920; [lra|apply (IZR_le 1920 (2 ^ 51)); lia]]).
  pose proof (Zfloor_lb (R64 x + / 2)). pose proof (Zfloor_ub (R64 x + / 2)). apply Rabs_le. lra.
Qed.
Lemma fast_near x : fin x -> 0 <= R64 x <= 1920 -> Rabs (R64 x - IZR (fast_round x)) <= / 2 + / 1000000.
Proof.
  intros F B. rewrite (fast_round_R x F) by (split; [lra|apply Rle_trans with 1920; [lra|apply (IZR_le 1920 (2 ^ 51)); lia]]).
  assert (A : Rabs (R64 x + / 2) <= bpow radix2 11) by (change (bpow radix2 11) with 2048; apply Rabs_le; lra).
  pose proof (rnd_err _ 11 ltac:(lia) A) as E. apply Rabs_le_inv in E. assert (C1 : bpow radix2 (11 - 54) <= / 1000000) by (change (bpow radix2 (11 - 54)) with (/ 8796093022208); lra).
  pose proof (Zfloor_lb (rnd (R64 x + / 2))). pose proof (Zfloor_ub (rnd (R64 x + / 2))). apply Rabs_le. lra.
Qed.
Lemma push_keeps l : forall acc p, In p acc \/ In p l -> In p (fold_left push_point l acc).
Proof.
  induction l as [|q l IH]; cbn [fold_left]; intros acc p I; [destruct I as [I|[]]; exact I|]. apply IH. destruct I as [I|[->|I]]; [left|left|right; exact I].
  - unfold push_point. destruct acc as [|a acc]; [destruct I|]. destruct (peq _ _); [exact I|apply in_or_app; left; exact I].
  - unfold push_point. destruct acc as [|a acc]; [left; reflexivity|]. destruct (peq (last (a :: acc) p) p) eqn:E; [|apply in_or_app; right; left; reflexivity].
    unfold peq in E. apply andb_true_iff in E. destruct E as [E1 E2]. apply Z.eqb_eq in E1, E2. assert (X : last (a :: acc) p = p) by (destruct (last (a :: acc) p), p; cbn in *; congruence).
    rewrite <- X at 1. destruct (exists_last (l := a :: acc) ltac:(discriminate)) as (l0 & z & ->). rewrite last_last. apply in_or_app. right. left. reflexivity.
Qed.

Lemma cell_covered (f : fpoint -> point) w h sites q poly X Y M :
  (forall c, fin (nx c) -> fin (ny c) -> 0 <= R64 (nx c) <= 1920 -> 0 <= R64 (ny c) <= 1920 -> Rabs (R64 (nx c) - IZR (px (f c))) <= / 2 + / 1000000 /\ Rabs (R64 (ny c) - IZR (py (f c))) <= / 2 + / 1000000) ->
  (0 <= w <= 1920)%Z -> (0 <= h <= 1920)%Z -> shows_cell w h sites q poly -> cell_inside w h sites q -> spread (vertex_at sites q) 1 (IZR X / IZR M) (IZR Y / IZR M) ->
  near_hull 0.5001 (IZR X / IZR M) (IZR Y / IZR M) (fold_left push_point (map f poly) []).
Proof.
  intros Hf Hw Hh SC CI S. eapply spread_near; [|exact S]. intros x y (X' & Y' & M' & VV & -> & ->). pose proof (proj1 VV) as HM. pose proof (CI _ _ _ VV) as LI.
  destruct (sc_all _ _ _ _ _ SC X' Y' M' VV LI) as (c & Ic & F1 & F2 & E1 & E2). exists (f c). split; [apply push_keeps; right; apply in_map, Ic|].
  assert (G : forall Z0 n, (0 <= n <= 1920)%Z -> (0 <= Z0 <= M' * n)%Z -> 0 <= IZR Z0 / IZR M' <= 1920 /\ 0 <= rounded (IZR Z0 / IZR M') <= 1920).
  { intros Z0 n Hn HZ. assert (PM : 0 < IZR M') by (apply IZR_lt; exact HM). assert (Bn : IZR n <= 1920) by (apply IZR_le; lia). pose proof (rounded_range n Z0 M' HM Hn HZ).
    split; [|lra]. split; [apply Rmult_le_pos; [apply IZR_le; lia|apply Rlt_le, Rinv_0_lt_compat, PM]|]. apply Rmult_le_reg_r with (IZR M'); [exact PM|]. unfold Rdiv. rewrite Rmult_assoc, Rinv_l, Rmult_1_r by lra.
    rewrite <- mult_IZR. apply IZR_le. nia. }
  destruct LI as [LX LY]. destruct (G X' w Hw LX) as [G1 G2]. destruct (G Y' h Hh LY) as [G3 G4]. pose proof (rounded_near _ G1) as N1. pose proof (rounded_near _ G3) as N2.
  rewrite <- E1 in N1, G2. rewrite <- E2 in N2, G4. destruct (Hf c F1 F2 G2 G4) as [P1 P2]. apply Rabs_le_inv in N1, N2, P1, P2. split; apply Rabs_le; lra.
Qed.

(* ---------------------------------------------------------------- *)
(** * The polygon does not reach beyond the cell *)
Definition side (q s : point) (k x y : R) : Prop :=
  2 * ((IZR (px s) - IZR (px q)) * x + (IZR (py s) - IZR (py q)) * y) <= k * (IZR (px s) * IZR (px s) + IZR (py s) * IZR (py s) - IZR (px q) * IZR (px q) - IZR (py q) * IZR (py q)).
Lemma in_cell_side sites q x y : in_cell sites q x y <-> forall s, In s sites -> side q s 1 x y.
Proof.
  unfold in_cell, side. split; intros H s I; specialize (H s I); set (a := IZR (px q)) in *; set (b := IZR (py q)) in *; set (c := IZR (px s)) in *; set (d := IZR (py s)) in *; clearbody a b c d; lra.
Qed.
Lemma vertex_in_cell sites q X Y M : voronoi_vertex sites q X Y M -> in_cell sites q (IZR X / IZR M) (IZR Y / IZR M).
Proof.
  intros (HM & _ & N & _). assert (PM : 0 < IZR M) by (apply IZR_lt; exact HM). intros s I. specialize (N s I). apply IZR_le in N. unfold sdist2 in N. rewrite !plus_IZR, !mult_IZR, !minus_IZR, !mult_IZR in N.
  apply Rmult_le_reg_r with (IZR M * IZR M); [apply Rmult_lt_0_compat; exact PM|].
  assert (E : forall a b, ((IZR X / IZR M - a) * (IZR X / IZR M - a) + (IZR Y / IZR M - b) * (IZR Y / IZR M - b)) * (IZR M * IZR M) = (IZR X - IZR M * a) * (IZR X - IZR M * a) + (IZR Y - IZR M * b) * (IZR Y - IZR M * b)) by (intros; field; lra).
  rewrite !E. exact N.
Qed.
Lemma hull_pulled sites q e poly : (forall p, In p poly -> exists x y, in_cell sites q x y /\ Rabs (IZR (px p) - x) <= e /\ Rabs (IZR (py p) - y) <= e) ->
  forall ws, length ws = length poly -> Forall (fun a => 0 <= a) ws ->
  exists x y, (forall s, In s sites -> side q s (fold_right Rplus 0 ws) x y) /\ Rabs (weighted px ws poly - x) <= fold_right Rplus 0 ws * e /\ Rabs (weighted py ws poly - y) <= fold_right Rplus 0 ws * e.
Proof.
  unfold weighted. induction poly as [|p poly IH]; intros H [|a ws] L F; try discriminate.
  - exists 0, 0. cbn. rewrite Rminus_0_r, Rabs_R0. split; [intros s _; unfold side; lra|]. split; lra.
  - inversion F as [|? ? Fa F']; subst. destruct (IH (fun x I => H x (or_intror I)) ws ltac:(cbn in L; congruence) F') as (x & y & S & B1 & B2). destruct (H p (or_introl eq_refl)) as (u & v & CU & D1 & D2).
    rewrite in_cell_side in CU. exists (a * u + x), (a * v + y). cbn [fold_right combine fst snd]. apply Rabs_le_inv in D1, D2, B1, B2.
    pose proof (Rmult_le_compat_l a _ _ Fa (proj1 D1)). pose proof (Rmult_le_compat_l a _ _ Fa (proj2 D1)). pose proof (Rmult_le_compat_l a _ _ Fa (proj1 D2)). pose proof (Rmult_le_compat_l a _ _ Fa (proj2 D2)).
    split; [|split; apply Rabs_le; split; lra]. intros s I. specialize (S s I). specialize (CU s I). unfold side in *. pose proof (Rmult_le_compat_l a _ _ Fa CU). lra.
Qed.
Lemma cell_not_left (f : fpoint -> point) w h sites q poly x y :
  (forall c, fin (nx c) -> fin (ny c) -> 0 <= R64 (nx c) <= 1920 -> 0 <= R64 (ny c) <= 1920 -> Rabs (R64 (nx c) - IZR (px (f c))) <= / 2 + / 1000000 /\ Rabs (R64 (ny c) - IZR (py (f c))) <= / 2 + / 1000000) ->
  (0 <= w <= 1920)%Z -> (0 <= h <= 1920)%Z -> shows_cell w h sites q poly -> cell_inside w h sites q -> in_hull x y (fold_left push_point (map f poly) []) ->
  exists x' y', in_cell sites q x' y' /\ Rabs (x - x') <= 0.5001 /\ Rabs (y - y') <= 0.5001.
Proof.
  intros Hf Hw Hh SC CI (ws & L & F & S & <- & <-).
  destruct (hull_pulled sites q 0.5001 (fold_left push_point (map f poly) [])) with (ws := ws) as (x & y & Sd & B1 & B2); [|exact L|exact F|].
  - intros p Ip. destruct (push_In _ _ _ Ip) as [[]|K]. apply in_map_iff in K. destruct K as (c & <- & Ic). destruct (sc_only _ _ _ _ _ SC CI c Ic) as (X' & Y' & M' & VV & F1 & F2 & E1 & E2).
    pose proof (proj1 VV) as HM. exists (IZR X' / IZR M'), (IZR Y' / IZR M'). split; [apply vertex_in_cell, VV|]. destruct (CI _ _ _ VV) as [LX LY].
    assert (G : forall Z0 n, (0 <= n <= 1920)%Z -> (0 <= Z0 <= M' * n)%Z -> 0 <= IZR Z0 / IZR M' <= 1920 /\ 0 <= rounded (IZR Z0 / IZR M') <= 1920).
    { intros Z0 n Hn HZ. assert (PM : 0 < IZR M') by (apply IZR_lt; exact HM). assert (Bn : IZR n <= 1920) by (apply IZR_le; lia). pose proof (rounded_range n Z0 M' HM Hn HZ).
      split; [|lra]. split; [apply Rmult_le_pos; [apply IZR_le; lia|apply Rlt_le, Rinv_0_lt_compat, PM]|]. apply Rmult_le_reg_r with (IZR M'); [exact PM|]. unfold Rdiv. rewrite Rmult_assoc, Rinv_l, Rmult_1_r by lra.
      rewrite <- mult_IZR. apply IZR_le. nia. }
    destruct (G X' w Hw LX) as [G1 G2]. destruct (G Y' h Hh LY) as [G3 G4]. pose proof (rounded_near _ G1) as N1. pose proof (rounded_near _ G3) as N2.
    rewrite <- E1 in N1, G2. rewrite <- E2 in N2, G4. destruct (Hf c F1 F2 G2 G4) as [P1 P2]. apply Rabs_le_inv in N1, N2, P1, P2. split; apply Rabs_le; lra.
  - rewrite S in *. rewrite Rmult_1_l in B1, B2. exists x, y. split; [apply in_cell_side; exact Sd|]. auto.
Qed.
