(** C82: the polygon of a cell that is not cut is the cell, up to rounding to pixels. *)
From Coq Require Import ZArith Reals List Bool Arith Lia Lra Permutation.
From Flocq Require Import IEEE754.BinarySingleNaN.
From Verif Require Import GoNum FloatLemmas M_Norm S_Norm M_Slice M_Geom M_Image M_Raster M_Delaunay S_Delaunay S_Remove M_Fitness S_Fitness M_Voronoi S_Voronoi M_Polygons S_Polygons S_PolyRun S_Cover
  L_Raster6 L_BW L_Circle L_Tri L_Image L_PMap L_Geom L_Insert L_Score L_Remove L_Centres L_Voronoi2 L_Cover P_Delaunay P_Remove P_Voronoi.
Import ListNotations.
Open Scope Z_scope.

(** Every few points of the image have a Delaunay triangulation. *)
Lemma adding w h Q : Forall (in_image w h) Q -> Z.of_nat (length Q) <= 32765 -> valid_ops w h [] (map MAdd (rev Q)) Q.
Proof.
  intros F L. assert (G : forall A P, Forall (in_image w h) A -> Z.of_nat (length A + length P) <= 32765 -> valid_ops w h P (map MAdd A) (rev A ++ P)).
  { clear. induction A as [|a A IH]; intros P F L; cbn [map rev]; [constructor|]. inversion F; subst. cbn [length] in L. rewrite <- app_assoc. constructor; [assumption|lia|]. apply (IH (a :: P)); [assumption|cbn [length]; lia]. }
  specialize (G (rev Q) []). rewrite rev_involutive, app_nil_r in G. apply G; [apply Forall_rev, F|rewrite rev_length; cbn [length]; lia].
Qed.
Lemma tiling_exists w h Q : usual_size w h -> Forall (in_image w h) Q -> Z.of_nat (length Q) <= 32765 -> exists T, delaunay_tiling (sup w h) Q T.
Proof. intros S F L. destruct (history_ok insertion_sort w h _ Q S insertion_sorts_hulls (adding w h Q F L)) as (d & _ & O). exact (ex_intro _ _ (ds_del _ _ _ _ O)). Qed.

Lemma nearest_far w h Q q X Y M : usual_size w h -> 4 <= Z.max w h -> Forall (in_image w h) Q -> In q Q -> loc_in_image w h X Y M -> nearest_to Q q X Y M -> nearest_to (far_points w h ++ Q) q X Y M.
Proof.
  intros (S1 & S2 & _) H4 F I [LX LY] [HM N]. split; [exact HM|]. intros s Is. apply in_app_or in Is. destruct Is as [Is|Is]; [|apply N, Is]. rewrite Forall_forall in F.
  apply Z.lt_le_incl. apply (far_away w h); auto; lia.
Qed.
Lemma round_close c : fin (nx c) -> fin (ny c) -> (0 <= R64 (nx c) <= 1920)%R -> (0 <= R64 (ny c) <= 1920)%R ->
  (Rabs (R64 (nx c) - IZR (px (round_point c))) <= / 2 + / 1000000)%R /\ (Rabs (R64 (ny c) - IZR (py (round_point c))) <= / 2 + / 1000000)%R.
Proof. intros F1 F2 B1 B2. pose proof (round_near _ F1 B1). pose proof (round_near _ F2 B2). unfold round_point. cbn [px py]. split; lra. Qed.

(** Every location of the image whose nearest point is [q] is spanned exactly by the
    vertices of the Voronoi cell of [q]. *)
Lemma cell_of_point w h Q q X Y M : usual_size w h -> 4 <= Z.max w h -> Forall (in_image w h) Q -> Z.of_nat (length Q) <= 32765 -> In q Q -> loc_in_image w h X Y M -> nearest_to Q q X Y M ->
  spread (vertex_at (far_points w h ++ Q) q) 1 (IZR X / IZR M) (IZR Y / IZR M).
Proof.
  intros S H4 F L I LI N. destruct (tiling_exists w h Q S F L) as (T & DT). rewrite <- far_super. eapply cell_mix; [exact DT| | |].
  - apply sup_inner; [apply small_ok, usual_small, S|]. rewrite Forall_forall in F. apply F, I.
  - apply in_or_app. right. exact I.
  - rewrite far_super. apply nearest_far; assumption.
Qed.

Lemma near_nonempty e x y : ~ near_hull e x y [].
Proof. intros (x' & y' & (ws & L & _ & S & _) & _). destruct ws; [cbn in S; lra|discriminate]. Qed.

(** The polygons of a list of cells, one for each point: the one of [q] covers everything
    of which [q] is the nearest point, if the cell is not cut. *)
Theorem C82_cells : forall w h Q qs cells q X Y M, usual_size w h -> 4 <= Z.max w h -> Forall (in_image w h) Q -> Z.of_nat (length Q) <= 32765 ->
  cell_per_point w h Q qs cells -> In q Q -> cell_inside w h (far_points w h ++ Q) q -> loc_in_image w h X Y M -> nearest_to Q q X Y M ->
  exists cell, In cell (filter nonempty cells) /\ shows_cell w h (far_points w h ++ Q) q cell /\
    near_hull 0.5001 (IZR X / IZR M) (IZR Y / IZR M) (round_polygon cell) /\ near_hull 0.5001 (IZR X / IZR M) (IZR Y / IZR M) (fast_polygon cell).
Proof.
  intros w h Q qs cells q X Y M S H4 F L (ND & IN & F2) I CI LI N. pose proof (cell_of_point w h Q q X Y M S H4 F L I LI N) as SP. destruct (usual_bounds _ _ S) as [Hw Hh].
  apply IN in I. assert (G : exists cell, In cell cells /\ shows_cell w h (far_points w h ++ Q) q cell).
  { clear - F2 I. induction F2 as [|x c qs cells H F2 IH]; [destruct I|]. destruct I as [->|I]; [exists c; split; [left; reflexivity|exact H]|]. destruct (IH I) as (cell & J & K). exists cell. split; [right; exact J|exact K]. }
  destruct G as (cell & Ic & SC). exists cell.
  pose proof (cell_covered round_point w h _ q cell X Y M round_close Hw Hh SC CI SP) as R.
  pose proof (cell_covered (fun c => Pt (fast_round (nx c)) (fast_round (ny c))) w h _ q cell X Y M (fun c F1 F2 B1 B2 => conj (fast_near _ F1 B1) (fast_near _ F2 B2)) Hw Hh SC CI SP) as R'.
  split; [|split; [exact SC|split; [exact R|exact R']]]. apply filter_In. split; [exact Ic|]. destruct cell; [|reflexivity]. exfalso. exact (near_nonempty _ _ _ R).
Qed.
Print Assumptions C82_cells.

(** ... and it does not reach beyond the cell. *)
Theorem C82_only : forall w h Q q cell x y, usual_size w h -> shows_cell w h (far_points w h ++ Q) q cell -> cell_inside w h (far_points w h ++ Q) q ->
  in_hull x y (round_polygon cell) \/ in_hull x y (fast_polygon cell) ->
  exists x' y', in_cell (far_points w h ++ Q) q x' y' /\ (Rabs (x - x') <= 0.5001)%R /\ (Rabs (y - y') <= 0.5001)%R.
Proof.
  intros w h Q q cell x y S SC CI H. destruct (usual_bounds _ _ S) as [Hw Hh]. destruct H as [H|H].
  - exact (cell_not_left round_point w h _ q cell x y round_close Hw Hh SC CI H).
  - exact (cell_not_left (fun c => Pt (fast_round (nx c)) (fast_round (ny c))) w h _ q cell x y (fun c F1 F2 B1 B2 => conj (fast_near _ F1 B1) (fast_near _ F2 B2)) Hw Hh SC CI H).
Qed.
Print Assumptions C82_only.

Lemma valid_in w h : forall P ops Q, valid_ops w h P ops Q -> Forall (in_image w h) P -> Z.of_nat (length P) <= 32765 -> Forall (in_image w h) Q /\ Z.of_nat (length Q) <= 32765.
Proof.
  induction 1 as [P|P p ops Q Hp L V IH|P p P' ops Q T V IH]; intros F LP; [auto| |].
  - apply IH; [constructor; assumption|cbn [length]; lia].
  - pose proof (take_out_spec _ _ _ T) as PE. apply IH; [|pose proof (Permutation_length PE) as PL; cbn [length] in PL; lia].
    assert (F' : Forall (in_image w h) (p :: P')) by (apply Forall_forall; intros x Ix; rewrite Forall_forall in F; apply F; first [apply (Permutation_in _ PE) in Ix; exact Ix|apply (Permutation_in _ (Permutation_sym PE)) in Ix; exact Ix]). inversion F'; assumption.
Qed.

(** After any history on an IVoronoi, with the rounding of the fitness function. *)
Theorem C82_incremental : forall srt hsrt w h ops Q v q X Y M, sorter_ok srt -> usual_size w h -> 4 <= Z.max w h -> sorts_hulls hsrt -> valid_ops w h [] ops Q -> iv_history srt hsrt w h ops = Some v ->
  In q Q -> cell_inside w h (far_points w h ++ Q) q -> loc_in_image w h X Y M -> nearest_to Q q X Y M ->
  exists cell, In cell (iv_iter v) /\ near_hull 0.5001 (IZR X / IZR M) (IZR Y / IZR M) (fast_polygon cell).
Proof.
  intros srt hsrt w h ops Q v q X Y M SO S H4 HO V E I CI LI N. destruct (C54_cells srt hsrt w h ops Q v SO S HO V E) as (_ & qs & cells & C & Ei & _).
  destruct (valid_in w h _ _ _ V (Forall_nil _) ltac:(cbn; lia)) as [F L]. destruct (C82_cells w h Q qs cells q X Y M S H4 F L C I CI LI N) as (cell & Ic & _ & _ & R). exists cell. rewrite Ei. auto.
Qed.
Print Assumptions C82_incremental.

(** Voronoi on a triangulation of the points [Q']; [Q] has the same points. *)
Lemma voronoi_covers srt w h Q Q' d l p X Y M : sorter_ok srt -> usual_size w h -> 4 <= Z.max w h -> dstate_ok w h Q' d -> (forall x, In x Q' <-> In x Q) -> voronoi srt d w h = Some l ->
  In p Q -> cell_inside w h (far_points w h ++ Q) p -> loc_in_image w h X Y M -> nearest_to Q p X Y M ->
  exists poly, In poly (map round_polygon l) /\ near_hull 0.5001 (IZR X / IZR M) (IZR Y / IZR M) poly.
Proof.
  intros SO S H4 O EQ EV Ip CI LI N. destruct (voronoi_cells srt w h Q' d l SO S O EV) as (cells & C & -> & _).
  assert (SAME : forall x, In x (far_points w h ++ Q') <-> In x (far_points w h ++ Q)) by (intros x; rewrite !in_app_iff, EQ; tauto).
  assert (VV : forall X Y M, voronoi_vertex (far_points w h ++ Q') p X Y M -> voronoi_vertex (far_points w h ++ Q) p X Y M).
  { intros X' Y' M' (A & B & D & a & b & Ia & Ib & K). split; [exact A|]. split; [apply SAME, B|]. split; [intros s Is; apply D, SAME, Is|]. exists a, b. split; [apply SAME, Ia|]. split; [apply SAME, Ib|exact K]. }
  destruct C as (ND & IN & F2). assert (Ip' : In p (pm_iter (d_pmap d))) by (apply IN, EQ, Ip).
  assert (G : exists cell, In cell cells /\ shows_cell w h (far_points w h ++ Q') p cell).
  { clear - F2 Ip'. induction F2 as [|x c qs cells H F2 IH]; [destruct Ip'|]. destruct Ip' as [->|I]; [exists c; split; [left; reflexivity|exact H]|]. destruct (IH I) as (cell & J & K). exists cell. split; [right; exact J|exact K]. }
  destruct G as (cell & Ic & SC). destruct (usual_bounds _ _ S) as [Hw Hh].
  assert (CI' : cell_inside w h (far_points w h ++ Q') p) by (intros X' Y' M' V'; apply CI, VV, V').
  assert (SP : spread (vertex_at (far_points w h ++ Q') p) 1 (IZR X / IZR M) (IZR Y / IZR M)).
  { rewrite <- far_super. eapply cell_mix; [exact (ds_del _ _ _ _ O)| | |].
    - apply sup_inner; [apply small_ok, usual_small, S|]. apply (ds_in _ _ _ _ O), EQ, Ip.
    - apply in_or_app. right. apply EQ, Ip.
    - rewrite far_super. apply nearest_far; auto; [apply Forall_forall; intros x; apply (ds_in _ _ _ _ O)|apply EQ, Ip|]. destruct N as [HM N]. split; [exact HM|]. intros s Is. apply N, EQ, Is. }
  pose proof (cell_covered round_point w h _ p cell X Y M round_close Hw Hh SC CI' SP) as R.
  exists (round_polygon cell). split; [|exact R]. apply in_map. apply filter_In. split; [exact Ic|]. destruct cell; [|reflexivity]. exfalso. exact (near_nonempty _ _ _ R).
Qed.
Lemma polygonate_is srt pts w h polys d0 d : new_delaunay w h = Some d0 -> foldM (fun d p => insert d (polygonate_point p w h)) pts d0 = Some d -> polygonate srt pts w h = Some polys ->
  exists l, voronoi srt d w h = Some l /\ polys = map round_polygon l.
Proof. intros E0 E. unfold polygonate. rewrite E0, E. destruct (voronoi srt d w h) as [l|]; [|discriminate]. intros [= <-]. exists l. auto. Qed.

(** The polygons of Polygonate, as they are drawn. *)
Theorem C82_polygonate : forall srt pts w h polys q X Y M, sorter_ok srt -> usual_size w h -> 4 <= Z.max w h -> Forall pt_in_unit pts -> Z.of_nat (length pts) <= 32765 ->
  polygonate srt pts w h = Some polys -> let Q := map (fun p => polygonate_point p w h) pts in
  In q Q -> cell_inside w h (far_points w h ++ Q) q -> loc_in_image w h X Y M -> nearest_to Q q X Y M ->
  exists poly, In poly polys /\ near_hull 0.5001 (IZR X / IZR M) (IZR Y / IZR M) poly.
Proof.
  intros srt pts w h polys q X Y M SO S H4 FU L EP Q Ip CI LI N. destruct (polygonate_state w h pts S FU L) as (d0 & d & Q' & E0 & E & O & HQ).
  destruct (polygonate_is srt pts w h polys d0 d E0 E EP) as (l & EV & ->).
  apply (voronoi_covers srt w h Q Q' d l q X Y M SO S H4 O); try assumption. intros x. rewrite HQ. unfold Q. rewrite in_map_iff. split; intros (y & A & B); exists y; auto.
Qed.
Print Assumptions C82_polygonate.

(** The members of a run of either algorithm over the polygon functions (C68). *)
Theorem C82_evaluated : forall im p i pts f q X Y M, usual_size (fi_w im) (fi_h im) -> 4 <= Z.max (fi_w im) (fi_h im) -> Forall pt_in_unit pts -> Z.of_nat (length pts) <= 32765 ->
  evaluated_cells im p i pts f -> let Q := map (mut_point im) pts in
  In q Q -> cell_inside (fi_w im) (fi_h im) (far_points (fi_w im) (fi_h im) ++ Q) q -> loc_in_image (fi_w im) (fi_h im) X Y M -> nearest_to Q q X Y M ->
  exists id t v cell, pat_pos p i = Some (id, t) /\ pf_tri t = Some v /\ In cell (iv_iter v) /\ near_hull 0.5001 (IZR X / IZR M) (IZR Y / IZR M) (fast_polygon cell).
Proof.
  intros im p i pts f q X Y M S H4 FU L (id & t & v & E1 & E2 & _ & (Q' & qs & cells & PE & C & Ei) & _) Q Iq CI LI N. fold Q in PE.
  assert (SAME : forall x, In x (far_points (fi_w im) (fi_h im) ++ Q') <-> In x (far_points (fi_w im) (fi_h im) ++ Q)).
  { intros x. rewrite !in_app_iff. assert (In x Q' <-> In x Q) by (split; apply Permutation_in; [exact PE|apply Permutation_sym, PE]). tauto. }
  assert (FQ : Forall (in_image (fi_w im) (fi_h im)) Q').
  { apply (Permutation_Forall (Permutation_sym PE)). unfold Q. apply Forall_forall. intros x Ix. apply in_map_iff in Ix. destruct Ix as (y & <- & Iy). rewrite Forall_forall in FU. apply point_in_image; [apply small_ok, usual_small, S|apply FU, Iy]. }
  assert (LQ : Z.of_nat (length Q') <= 32765) by (rewrite (Permutation_length PE); unfold Q; rewrite map_length; exact L).
  destruct (C82_cells (fi_w im) (fi_h im) Q' qs cells q X Y M S H4 FQ LQ C) as (cell & Ic & _ & _ & R).
  - eapply Permutation_in; [apply Permutation_sym, PE|exact Iq].
  - intros X' Y' M' (A & B & D & a & b & Ia & Ib & K). apply CI. split; [exact A|]. split; [apply SAME, B|]. split; [intros s Is; apply D, SAME, Is|]. exists a, b. split; [apply SAME, Ia|]. split; [apply SAME, Ib|exact K].
  - exact LI.
  - destruct N as [HM N]. split; [exact HM|]. intros s Is. apply N. eapply Permutation_in; [exact PE|exact Is].
  - exists id, t, v, cell. rewrite Ei. auto.
Qed.
Print Assumptions C82_evaluated.

(* ---------------------------------------------------------------- *)
(** * Example *)
(** The history of C54: the cell of (50, 50) is not cut, (70, 30) belongs to it, and so
    does (60, 21/2) close to its upper end; its polygon is the fourth one. *)
Definition seven : list point := [Pt 50 50; Pt 33 61; Pt 0 57; Pt 100 0; Pt 20 80; Pt 80 80; Pt 20 20].
Lemma seven_inside : cell_inside 100 100 (far_points 100 100 ++ seven) (Pt 50 50).
Proof.
  intros X Y M (HM & _ & N & _). assert (I : forall s, In s seven -> sdist2 X Y M (Pt 50 50) <= sdist2 X Y M s) by (intros s Is; apply N, in_or_app; right; exact Is).
  pose proof (I (Pt 33 61) ltac:(cbn; auto)) as I1. pose proof (I (Pt 100 0) ltac:(cbn; auto 10)) as I2. pose proof (I (Pt 80 80) ltac:(cbn; auto 10)) as I3. pose proof (I (Pt 20 20) ltac:(cbn; auto 10)) as I4.
  rewrite <- Z.le_0_sub, half_plane in I1, I2, I3, I4. cbn [px py] in I1, I2, I3, I4. unfold loc_in_image.
  apply Z.mul_nonneg_cancel_l in I1, I2, I3, I4; try exact HM. lia.
Qed.
Lemma seven_near X Y M : 0 < M -> (X, Y, M) = (70, 30, 1) \/ (X, Y, M) = (120, 21, 2) -> loc_in_image 100 100 X Y M /\ nearest_to seven (Pt 50 50) X Y M.
Proof.
  intros HM [[= -> -> ->]|[= -> -> ->]]; (split; [unfold loc_in_image; lia|split; [lia|]]); intros s Is; unfold seven in Is; cbn [In] in Is;
    repeat (destruct Is as [<-|Is]; [unfold sdist2; cbn [px py]; lia|]); destruct Is.
Qed.
Lemma seven_polygon : option_map (fun v => map fast_polygon (iv_iter v)) (iv_history slice_sort insertion_sort 100 100 sample_ops) = Some sample_cells.
Proof. vm_compute. reflexivity. Qed.
Example C82_case : cell_inside 100 100 (far_points 100 100 ++ seven) (Pt 50 50) /\ loc_in_image 100 100 70 30 1 /\ nearest_to seven (Pt 50 50) 70 30 1 /\
  loc_in_image 100 100 120 21 2 /\ nearest_to seven (Pt 50 50) 120 21 2 /\ valid_ops 100 100 [] sample_ops seven /\
  nth 3 sample_cells [] = [Pt 31 39; Pt 60 10; Pt 90 40; Pt 54 76] /\
  option_map (fun v => map fast_polygon (iv_iter v)) (iv_history slice_sort insertion_sort 100 100 sample_ops) = Some sample_cells.
Proof.
  split; [exact seven_inside|]. destruct (seven_near 70 30 1 ltac:(lia) ltac:(auto)) as [A B]. destruct (seven_near 120 21 2 ltac:(lia) ltac:(auto)) as [C D].
  split; [exact A|]. split; [exact B|]. split; [exact C|]. split; [exact D|]. split; [exact sample_ops_valid|]. split; [reflexivity|exact seven_polygon].
Qed.
