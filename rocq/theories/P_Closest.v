(** C51: GetClosestTo. *)
From Coq Require Import ZArith List Bool Lia Permutation.
From Verif Require Import GoNum M_Norm M_Slice M_Geom S_Geom M_Image M_Raster S_Raster M_Delaunay S_Delaunay
  L_Raster1 L_Raster6 L_PMap L_GMap L_Super L_Slots L_Slots2 L_Plane L_BW L_Toggle L_Count L_Insert L_Circle L_Hist L_Lookup L_Reach L_Tiles P_Delaunay.
Import ListNotations.
Open Scope Z_scope.

Definition corners (d : delaunay) : list point := flat_map (fun t => [d_a t; d_b t; d_c t]) (used d).

Section Fold.
Context (f : point * Z -> point -> point * Z) (dist : point -> Z).
Lemma closest_fold l : forall acc, (forall q a, In q l -> f a q = if dist q <? snd a then (q, dist q) else a) ->
  fold_left f l acc = acc /\ (forall q, In q l -> snd acc <= dist q) \/
  (In (fst (fold_left f l acc)) l /\ snd (fold_left f l acc) = dist (fst (fold_left f l acc)) /\
   snd (fold_left f l acc) < snd acc /\ forall q, In q l -> snd (fold_left f l acc) <= dist q).
Proof.
  induction l as [|q l IH]; intros acc H; cbn [fold_left]; [left; split; [reflexivity|intros q []]|].
  pose proof (H q acc (or_introl eq_refl)) as C. specialize (IH (f acc q) (fun q' a I => H q' a (or_intror I))).
  rewrite C in *. clear C. destruct IH as [[A B]|(A & B & D & F)].
  - rewrite A. destruct (Z.ltb_spec (dist q) (snd acc)) as [L|L]; cbn [fst snd] in *.
    + right. split; [left; reflexivity|]. split; [reflexivity|]. split; [exact L|]. intros q' [<-|I]; [lia|apply B, I].
    + left. split; [reflexivity|]. intros q' [<-|I]; [lia|apply B, I].
  - right. split; [right; exact A|]. split; [exact B|]. destruct (Z.ltb_spec (dist q) (snd acc)) as [L|L]; cbn [fst snd] in D.
    + split; [lia|]. intros q' [<-|I]; [lia|apply F, I].
    + split; [exact D|]. intros q' [<-|I]; [lia|apply F, I].
Qed.
End Fold.
Lemma flat_acc {A} (f : A -> point -> A) l : forall acc, fold_left (fun acc t => if is_freed t then acc else f (f (f acc (d_a t)) (d_b t)) (d_c t)) l acc =
  fold_left f (flat_map (fun t => [d_a t; d_b t; d_c t]) (filter (fun t => negb (is_freed t)) l)) acc.
Proof.
  induction l as [|t l IH]; intros acc; [reflexivity|]. cbn [fold_left filter]. destruct (is_freed t); cbn [negb]; [apply IH|]. cbn [flat_map app fold_left]. apply IH.
Qed.
Lemma closest_flat d p : get_closest_to d p = fst (fold_left (closer p) (corners d) (Pt 0 0, 2 ^ 63 - 1)).
Proof. unfold get_closest_to. rewrite (flat_acc (closer p)). reflexivity. Qed.
Lemma dist_exact w h p q : size_ok w h -> in_image w h p -> okv w h q -> dist_sq p q = sqdist p q /\ sqdist p q < 2 ^ 63 - 1.
Proof.
  intros S Hp Hq. unfold size_ok in S. unfold in_image in Hp. pose proof (half_bounds w ltac:(lia)). pose proof (half_bounds h ltac:(lia)).
  assert (B : Z.abs (px q - px p) <= 30000 /\ Z.abs (py q - py p) <= 30000) by (okv_cases Hq; lia).
  unfold dist_sq, sqdist. cbv zeta. rewrite !i16_id by (unfold int16_range; change (2 ^ 15) with 32768; lia).
  assert (0 <= (px q - px p) * (px q - px p) <= 30000 * 30000) by nia. assert (0 <= (py q - py p) * (py q - py p) <= 30000 * 30000) by nia.
  split; [rewrite i64_id by lia; ring|].
  replace ((px p - px q) * (px p - px q)) with ((px q - px p) * (px q - px p)) by ring. replace ((py p - py q) * (py p - py q)) with ((py q - py p) * (py q - py p)) by ring. lia.
Qed.
Lemma corners_okv w h P d q : size_ok w h -> reach w h P d -> In q (corners d) -> okv w h q.
Proof.
  intros S R I. pose proof (rs_corners _ _ _ (proj1 (reach_ok w h P d S R))) as C. unfold corners in I. apply in_flat_map in I as (t & It & I).
  specialize (C t It). destruct C as (C1 & C2 & C3). destruct I as [<-|[<-|[<-|[]]]]; assumption.
Qed.

(** After any history of insertions and removals: a corner of a triangle in use, none nearer. *)
Lemma closest_ok w h d p : size_ok w h -> in_image w h p -> (forall q, In q (corners d) -> okv w h q) -> corners d <> [] -> nearest p (corners d) (get_closest_to d p).
Proof.
  intros S Hp Hc Hn. rewrite closest_flat. destruct (closest_fold (closer p) (sqdist p) (corners d) (Pt 0 0, 2 ^ 63 - 1)) as [[_ B]|(A & B & _ & F)].
  - intros q a I. unfold closer. cbv zeta. rewrite (proj1 (dist_exact w h p q S Hp (Hc q I))). reflexivity.
  - exfalso. destruct (corners d) as [|q l] eqn:E; [contradiction|]. specialize (B q (or_introl eq_refl)). cbn [snd] in B.
    pose proof (proj2 (dist_exact w h p q S Hp (Hc q (or_introl eq_refl)))). lia.
  - split; [exact A|]. intros q I. rewrite <- B. apply F, I.
Qed.
Theorem C51_nearest_corner : forall w h P d p, good_size w h -> reach w h P d -> in_image w h p -> used d <> [] -> nearest p (corners d) (get_closest_to d p).
Proof.
  intros w h P d p S R Hp U. apply good_size_ok in S. apply (closest_ok w h); [exact S|exact Hp|intros q; apply (corners_okv w h P d q S R)|].
  unfold corners. destruct (used d) as [|t l]; [contradiction|]. discriminate.
Qed.
Print Assumptions C51_nearest_corner.

(** From images with a side of 4 on the corners of the enclosing triangle are farther from
    a point of the image than every other point of the image. *)
Lemma super_far w h p q v : size_ok w h -> 4 <= Z.max w h -> in_image w h p -> in_image w h q -> In v (verts (sup w h)) -> sqdist p q < sqdist p v.
Proof.
  intros S H4 Hp Hq Hv. unfold size_ok in S. unfold in_image in Hp, Hq. pose proof (half_bounds w ltac:(lia)) as A. pose proof (half_bounds h ltac:(lia)) as B.
  set (a := (w + 1) / 2) in *. set (b := (h + 1) / 2) in *. set (m := Z.max w h) in *. assert (Hm : w <= m /\ h <= m) by lia.
  assert (Q : sqdist p q <= Z.max (px p) (w - px p) * Z.max (px p) (w - px p) + Z.max (py p) (h - py p) * Z.max (py p) (h - py p)).
  { unfold sqdist. apply Z.add_le_mono; rewrite <- (Z.abs_square (_ - _)); apply Z.square_le_mono_nonneg; lia. }
  eapply Z.le_lt_trans; [exact Q|]. clear Q Hq.
  unfold sup, sA, sB, sC, verts in Hv. cbn [ta tb tc] in Hv. fold a b m in Hv. clearbody a b m. destruct p as [x y]. unfold sqdist. cbn [px py] in *.
  assert (X1 : Z.max x (w - x) <= m) by lia. assert (Y1 : Z.max y (h - y) <= m) by lia.
  assert (X2 : 2 * Z.max x (w - x) <= 2 * Z.abs (x - a) + m + 1) by lia.
  assert (X3 : 0 <= Z.max x (w - x)) by lia. assert (Y3 : 0 <= Z.max y (h - y)) by lia.
  set (u := Z.max x (w - x)) in *. set (v' := Z.max y (h - y)) in *.
  assert (U : u * u <= m * u) by nia. assert (V : v' * v' <= m * m) by nia.
  destruct Hv as [<-|[<-|[<-|[]]]]; cbn [px py].
  - assert (3 * m - 1 <= 2 * (x - (a - 2 * m))) by lia. assert (m - 1 <= 2 * (y - (b - m))) by lia. clearbody u v'. clear - H H0 U V X1 H4. nia.
  - assert (3 * m <= 2 * (a + 2 * m - x)) by lia. assert (m - 1 <= 2 * (y - (b - m))) by lia. clearbody u v'. clear - H H0 U V X1 H4. nia.
  - assert (D : 3 * m <= 2 * (b + 2 * m - y)) by lia. assert (W : 2 * Z.abs (x - a) <= m + 1) by lia. rewrite <- (Z.abs_square (x - a)). set (e := Z.abs (x - a)) in *.
    assert (E : 0 <= e) by lia. clearbody u v' e. clear - D W E X2 V H4 X3. assert (4 * (u * u) <= (2 * e + m + 1) * (2 * e + m + 1)) by nia. nia.
Qed.
(** After insertions: a nearest inserted point. *)
Theorem C51_nearest_point : forall w h ps d p, good_history w h ps -> 4 <= Z.max w h -> inserts w h ps = Some d -> ps <> [] -> in_image w h p -> nearest p ps (get_closest_to d p).
Proof.
  intros w h ps d p H H4 E N Hp. destruct (history_state _ _ _ _ H E) as [S O]. pose proof H as (_ & Hin & _). rewrite Forall_forall in Hin.
  assert (C : forall q, In q (corners d) -> In q (verts (sup w h)) \/ In q ps).
  { intros q I. unfold corners in I. apply in_flat_map in I as (t & It & I). pose proof (dt_verts _ _ _ (ds_del _ _ _ _ O) (ccw t) q (in_map ccw _ _ It)) as V.
    rewrite ccw_verts in V. specialize (V ltac:(cbn in I; intuition auto)). apply in_app_or in V as [V|V]; [auto|right; apply in_rev, V]. }
  assert (D : forall q, In q ps -> In q (corners d)).
  { intros q I. apply in_rev in I. destruct (st_used w h (rev ps) d O q I) as (t & It & J). unfold corners. apply in_flat_map. exists t. split; assumption. }
  destruct (closest_ok w h d p S Hp) as [A B].
  - intros q I. destruct (C q I) as [V|V]; [left; exact V|right; apply Hin, V].
  - destruct ps as [|q l]; [contradiction|]. intros Z0. specialize (D q (or_introl eq_refl)). rewrite Z0 in D. exact D.
  - split; [|intros q I; apply B, D, I]. destruct (C _ A) as [V|V]; [|exact V]. exfalso. destruct ps as [|q l]; [contradiction|].
    pose proof (super_far w h p q _ S H4 Hp (Hin q (or_introl eq_refl)) V). specialize (B q (D q (or_introl eq_refl))). lia.
Qed.
Print Assumptions C51_nearest_point.
Example C51_case : match inserts 100 100 sample with Some d => Some (get_closest_to d (Pt 65 40), get_closest_to d (Pt 0 0)) | None => None end = Some (Pt 50 50, Pt 20 20).
Proof. vm_compute. reflexivity. Qed.
(** On a 3x3 image a corner of the enclosing triangle, outside the image, can be nearer. *)
Theorem C51_small_refuted : good_history 3 3 [Pt 3 3] /\ match inserts 3 3 [Pt 3 3] with Some d => Some (get_closest_to d (Pt 0 0)) | None => None end = Some (Pt (-4) (-1)).
Proof.
  split; [|vm_compute; reflexivity]. unfold good_history, good_size. split; [lia|]. split; [repeat constructor; cbn; lia|]. split; [left; lia|cbn; lia].
Qed.
Print Assumptions C51_small_refuted.
