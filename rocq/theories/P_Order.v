(** C84: the vertices of the cells come in counterclockwise order. *)
From Coq Require Import ZArith Reals List Bool Arith Lia Lra Permutation.
From Flocq Require Import IEEE754.BinarySingleNaN.
From Verif Require Import GoNum FloatLemmas M_Norm S_Norm M_Slice M_Geom M_Image M_Raster M_Delaunay S_Delaunay S_Remove M_Voronoi S_Voronoi S_Cover S_Corner S_Order
  L_Geom L_Image L_Remove L_Insert L_Centres L_IVor L_Voronoi L_Voronoi2 L_SliceSort L_PMap L_Corner L_Order P_Delaunay P_Remove P_Voronoi P_Cover.
Import ListNotations.
Open Scope Z_scope.

Lemma rounded_out_low X M : 0 < M -> X <= - M -> (rounded (IZR X / IZR M) <= -1)%R.
Proof.
  intros HM H. rewrite <- (rounded_Z (-1)) by lia. apply rounded_le. assert (PM : (0 < IZR M)%R) by (apply IZR_lt; exact HM).
  apply Rmult_le_reg_r with (IZR M); [exact PM|]. unfold Rdiv. rewrite Rmult_assoc, Rinv_l, Rmult_1_r by lra. rewrite <- mult_IZR. apply IZR_le. lia.
Qed.
Lemma rounded_out_high w X M : 0 < M -> 0 <= w <= 1920 -> M * (w + 1) <= X -> (IZR w + 1 <= rounded (IZR X / IZR M))%R.
Proof.
  intros HM Hw H. rewrite <- plus_IZR, <- (rounded_Z (w + 1)) by lia. apply rounded_le. assert (PM : (0 < IZR M)%R) by (apply IZR_lt; exact HM).
  apply Rmult_le_reg_r with (IZR M); [exact PM|]. unfold Rdiv. rewrite Rmult_assoc, Rinv_l, Rmult_1_r by lra. rewrite <- mult_IZR. apply IZR_le. lia.
Qed.
Lemma out_outside w h c X Y M : 0 < M -> 0 <= w <= 1920 -> 0 <= h <= 1920 -> at_rounded c X Y M -> (X <= - M \/ M * (w + 1) <= X \/ Y <= - M \/ M * (h + 1) <= Y) -> outside c w h = true.
Proof.
  intros HM Hw Hh (F1 & F2 & E1 & E2) H. destruct (outside c w h) eqn:O; [reflexivity|]. exfalso. destruct (inside_frame w h c Hw Hh (conj F1 F2) O) as (_ & _ & B1 & B2). rewrite E1 in B1. rewrite E2 in B2.
  destruct H as [H|[H|[H|H]]]; [pose proof (rounded_out_low _ _ HM H)|pose proof (rounded_out_high _ _ _ HM Hw H)|pose proof (rounded_out_low _ _ HM H)|pose proof (rounded_out_high _ _ _ HM Hh H)]; lra.
Qed.

(** What holds for the polygon of the cell of [q] (of at most a million vertices): there is a
    centre such that the vertices come in counterclockwise order around it if their
    directions differ clearly.  It is the point itself if the cell lies in the image, the
    average of the vertices (up to 2^-21) if the cell reaches out, one of these anyway. *)
Definition ordered (w h : Z) (sites : list point) (q : point) (poly : list fpoint) : Prop :=
  Z.of_nat (length poly) <= 1048576 -> poly <> [] ->
  exists c, (c = fpt q \/ near_average (/ 2097152) c poly) /\ (cell_inside w h sites q -> c = fpt q) /\ (reaches_out w h sites q -> near_average (/ 2097152) c poly) /\
    (all_clear c poly -> in_order c poly).

Lemma fresh_ordered srt w h Q q poly : sorter_ok srt -> sorts srt -> usual_size w h -> in_image w h q -> fresh srt w h Q q poly -> ordered w h (far_points w h ++ Q) q poly.
Proof.
  intros SO ST S IM (cs & D & E) L NE. destruct (usual_bounds _ _ S) as [Hw Hh]. pose proof (describes_fin _ _ _ D) as F. unfold in_image in IM.
  destruct (cell_order srt w h q cs poly SO ST Hw Hh ltac:(lia) ltac:(lia) F E L NE) as (c & C1 & C2 & C3). exists c. destruct D as [D1 D2]. split; [|split; [|split; [|exact C3]]].
  - destruct (existsb (fun x => outside x w h) cs) eqn:X; [right; apply C1; apply existsb_exists in X; exact X|left; apply C2].
    intros x Ix. destruct (outside x w h) eqn:O; [|reflexivity]. rewrite <- X. symmetry. apply existsb_exists. eauto.
  - intros CI. apply C2. intros x Ix. destruct (D1 x Ix) as (X & Y & M & V & A). apply (in_image_inside w h x X Y M); auto. apply V.
  - intros (X & Y & M & V & O). apply C1. destruct (D2 X Y M V) as (x & Ix & A). exists x. split; [exact Ix|]. apply (out_outside w h x X Y M); auto. apply V.
Qed.

(** C84: the polygons of the incremental diagram. *)
Theorem C84_incremental : forall srt hsrt w h ops Q v q poly, sorter_ok srt -> sorts srt -> usual_size w h -> sorts_hulls hsrt -> valid_ops w h [] ops Q -> iv_history srt hsrt w h ops = Some v ->
  In (q, poly) (concat (v_map v)) -> In q Q /\ ordered w h (far_points w h ++ Q) q poly.
Proof.
  intros srt hsrt w h ops Q v q poly SO ST S HO V E I. pose proof (iv_new srt hsrt w h ops Q S HO V) as K. rewrite E in K. destruct K as [[A1 A2 A3 A4 A5 A6 A7] _].
  assert (Iq : In q Q) by (apply A6; unfold keys; change q with (fst (q, poly)); apply in_map, I). split; [exact Iq|]. apply (fresh_ordered srt); auto. apply (ds_in _ _ _ _ A1), Iq.
Qed.
Print Assumptions C84_incremental.

Lemma vertex_same S S' q X Y M : (forall x, In x S <-> In x S') -> voronoi_vertex S q X Y M -> voronoi_vertex S' q X Y M.
Proof.
  intros H (A & B & D & a & b & Ia & Ib & K). split; [exact A|]. split; [apply H, B|]. split; [intros s Is; apply D, H, Is|]. exists a, b. split; [apply H, Ia|]. split; [apply H, Ib|exact K].
Qed.
Lemma ordered_same w h S S' q poly : (forall x, In x S <-> In x S') -> ordered w h S q poly -> ordered w h S' q poly.
Proof.
  intros H O L NE. destruct (O L NE) as (c & C1 & C2 & C3 & C4). exists c. split; [exact C1|]. split; [|split; [|exact C4]].
  - intros CI. apply C2. intros X Y M V. apply CI. eapply vertex_same; eauto.
  - intros (X & Y & M & V & R). apply C3. exists X, Y, M. split; [|exact R]. eapply vertex_same; [|exact V]. intros x. symmetry. apply H.
Qed.
Lemma voronoi_ordered srt w h Q d l poly : sorter_ok srt -> sorts srt -> usual_size w h -> dstate_ok w h Q d -> voronoi srt d w h = Some l -> In poly l -> exists q, In q Q /\ ordered w h (far_points w h ++ Q) q poly.
Proof.
  intros SO ST S O EV I. unfold voronoi in EV.
  destruct (mapM (cell_of srt d w h) (pm_iter (d_pmap d))) as [cells|] eqn:EM; [|discriminate]. injection EV as <-. apply filter_In in I as [I _]. apply (mapM_In _ _ _ EM) in I. destruct I as (q & Iq & Eq).
  assert (J : In q Q) by (eapply pm_iter_In; [exact (ds_pm _ _ _ _ O)|exact Iq]). exists q. split; [exact J|]. apply (fresh_ordered srt); auto; [apply (ds_in _ _ _ _ O), J|]. eapply cell_fresh; eauto. apply usual_small, S.
Qed.

(** C84: the polygons of Voronoi. *)
Theorem C84_voronoi : forall srt hsrt w h ops Q d l, sorter_ok srt -> sorts srt -> usual_size w h -> sorts_hulls hsrt -> valid_ops w h [] ops Q -> history hsrt w h ops = Some d ->
  voronoi srt d w h = Some l -> forall poly, In poly l -> exists q, In q Q /\ ordered w h (far_points w h ++ Q) q poly.
Proof.
  intros srt hsrt w h ops Q d l SO ST S HO V E EV poly I. destruct (history_is _ _ _ _ _ _ S HO V E) as [_ O]. eapply voronoi_ordered; eauto.
Qed.
Print Assumptions C84_voronoi.

(** C84: the polygons of Polygonate are such cells, rounded to pixels. *)
Theorem C84_polygonate : forall srt pts w h polys, sorter_ok srt -> sorts srt -> usual_size w h -> Forall pt_in_unit pts -> Z.of_nat (length pts) <= 32765 ->
  polygonate srt pts w h = Some polys -> let Q := map (fun p => polygonate_point p w h) pts in
  forall poly, In poly polys -> exists q cell, In q Q /\ poly = round_polygon cell /\ ordered w h (far_points w h ++ Q) q cell.
Proof.
  intros srt pts w h polys SO ST S FU L EP Q poly I. destruct (polygonate_state w h pts S FU L) as (d0 & d & Q' & E0 & E & O & HQ).
  destruct (polygonate_is srt pts w h polys d0 d E0 E EP) as (l & EV & ->). apply in_map_iff in I as (cell & <- & Ic).
  destruct (voronoi_ordered srt w h Q' d l cell SO ST S O EV Ic) as (q & Iq & OR). exists q, cell. assert (SAME : forall x, In x Q' <-> In x Q) by (intros x; unfold Q; rewrite HQ, in_map_iff; split; intros (p & A & B); exists p; auto).
  split; [apply SAME, Iq|]. split; [reflexivity|]. eapply ordered_same; [|exact OR]. intros x. rewrite !in_app_iff, SAME. reflexivity.
Qed.
Print Assumptions C84_polygonate.

(** C84: a polygon in this order whose vertices are in convex position around the centre is
    convex: every vertex is to the left of every side or on it. *)
Theorem C84_convex : forall c poly, in_order c poly -> surrounded c poly -> convex_position poly -> convex_polygon poly.
Proof. exact order_convex. Qed.
Print Assumptions C84_convex.

(** C84: the assumption on the sort can be met. *)
Theorem C84_sort : sorter_ok slice_sort /\ sorts slice_sort.
Proof. split; [exact slice_sort_ok|exact slice_sort_sorts]. Qed.
Print Assumptions C84_sort.

(* ---------------------------------------------------------------- *)
(** * Example *)
(** Five points; the cell of the middle one is a square, the one to its left is cut at the border
    of the image. *)
Definition plus_ops : list mop := map MAdd [Pt 50 50; Pt 80 50; Pt 50 80; Pt 20 50; Pt 50 20].
Fixpoint same_points (l k : list fpoint) : bool := match l, k with [], [] => true | a :: l, b :: k => npeq a b && same_points l k | _, _ => false end.
Definition middle_cell : list point := [Pt 35 65; Pt 35 35; Pt 65 35; Pt 65 65].
Definition left_cell : list point := [Pt 0 100; Pt 0 0; Pt 35 35; Pt 35 65].
Definition plus_cells : option (list (point * bool)) :=
  option_map (fun v => map (fun e => (fst e, same_points (snd e) (map fpt (if peq (fst e) (Pt 50 50) then middle_cell else left_cell)))) (filter (fun e => peq (fst e) (Pt 50 50) || peq (fst e) (Pt 20 50)) (concat (v_map v))))
    (iv_history slice_sort insertion_sort 100 100 plus_ops).

Lemma plus_cells_are : plus_cells = Some [(Pt 50 50, true); (Pt 20 50, true)].
Proof. vm_compute. reflexivity. Qed.
Lemma fpt_R p : Z.abs (px p) <= 1000 -> Z.abs (py p) <= 1000 -> R64 (nx (fpt p)) = IZR (px p) /\ R64 (ny (fpt p)) = IZR (py p).
Proof. intros A B. unfold fpt. cbn [nx ny]. split; apply of_Z_val; lia. Qed.
Definition mid : fpoint := fpt (Pt 50 50).
Lemma middle_d : map (fun p => (dx mid (fpt p), dy mid (fpt p))) middle_cell = [(-15, 15); (-15, -15); (15, -15); (15, 15)]%R.
Proof.
  unfold middle_cell, mid, dx, dy. cbn [map]. repeat match goal with |- context [R64 (nx (fpt ?p))] => rewrite (proj1 (fpt_R p ltac:(cbn; lia) ltac:(cbn; lia))) end.
  repeat match goal with |- context [R64 (ny (fpt ?p))] => rewrite (proj2 (fpt_R p ltac:(cbn; lia) ltac:(cbn; lia))) end. cbn [px py]. repeat f_equal; lra.
Qed.
Example C84_case : plus_cells = Some [(Pt 50 50, true); (Pt 20 50, true)] /\
  all_clear mid (map fpt middle_cell) /\ in_order mid (map fpt middle_cell) /\ surrounded mid (map fpt middle_cell) /\ convex_position (map fpt middle_cell) /\ convex_polygon (map fpt middle_cell).
Proof.
  split; [exact plus_cells_are|]. pose proof middle_d as D. unfold middle_cell in *. cbn [map] in *. injection D as X1 Y1 X2 Y2 X3 Y3 X4 Y4.
  set (p1 := fpt (Pt 35 65)) in *. set (p2 := fpt (Pt 35 35)) in *. set (p3 := fpt (Pt 65 35)) in *. set (p4 := fpt (Pt 65 65)) in *. clearbody p1 p2 p3 p4.
  assert (C12 : cross mid p1 p2 = 450%R) by (unfold cross; rewrite X1, X2, Y1, Y2; lra). assert (C21 : cross mid p2 p1 = (-450)%R) by (unfold cross; rewrite X1, X2, Y1, Y2; lra).
  assert (C34 : cross mid p3 p4 = 450%R) by (unfold cross; rewrite X3, X4, Y3, Y4; lra). assert (C43 : cross mid p4 p3 = (-450)%R) by (unfold cross; rewrite X3, X4, Y3, Y4; lra).
  assert (CL : all_clear mid [p1; p2; p3; p4]).
  { intros i j a b N Ea Eb. unfold clear. do 4 (destruct i as [|i]; [cbn in Ea; injection Ea as <-; do 4 (destruct j as [|j]; [cbn in Eb; try (exfalso; apply N; reflexivity); injection Eb as <-;
      rewrite ?X1, ?X2, ?X3, ?X4, ?Y1, ?Y2, ?Y3, ?Y4; try (left; lra); try (right; left; lra); right; right; right; rewrite ?C12, ?C21, ?C34, ?C43; unfold Rabs; destruct (Rcase_abs _); lra|]); destruct j; discriminate|]). destruct i; discriminate. }
  assert (IO : in_order mid [p1; p2; p3; p4]).
  { intros i j a b N Ea Eb. unfold before. do 4 (destruct i as [|i]; [cbn in Ea; injection Ea as <-; do 4 (destruct j as [|j]; [cbn in Eb; try (exfalso; lia); injection Eb as <-;
      rewrite ?X1, ?X2, ?X3, ?X4, ?Y1, ?Y2, ?Y3, ?Y4; try (left; lra); right; left; rewrite ?C12, ?C34; lra|]); destruct j; discriminate|]). destruct i; discriminate. }
  assert (SU : surrounded mid [p1; p2; p3; p4]).
  { intros ux uy NZ. destruct (Rlt_le_dec 0 ux) as [A|A], (Rlt_le_dec 0 uy) as [B|B].
    - exists p4. split; [cbn; auto|]. rewrite X4, Y4. lra.
    - exists p3. split; [cbn; auto|]. rewrite X3, Y3. lra.
    - exists p1. split; [cbn; auto|]. rewrite X1, Y1. lra.
    - exists p2. split; [cbn; auto|]. rewrite X2, Y2. destruct NZ as [NZ|NZ]; [assert (ux < 0)%R by lra|assert (uy < 0)%R by lra]; lra. }
  assert (CP : convex_position [p1; p2; p3; p4]).
  { intros v I. cbn [In] in I. destruct I as [<-|[<-|[<-|[<-|[]]]]]; [exists (-1)%R, 1%R|exists (-1)%R, (-1)%R|exists 1%R, (-1)%R|exists 1%R, 1%R]; intros w I N; rewrite (dx_shift mid), (dy_shift mid); cbn [In] in I;
      destruct I as [<-|[<-|[<-|[<-|[]]]]]; try congruence; rewrite ?X1, ?X2, ?X3, ?X4, ?Y1, ?Y2, ?Y3, ?Y4; lra. }
  split; [exact CL|]. split; [exact IO|]. split; [exact SU|]. split; [exact CP|]. exact (C84_convex mid _ IO SU CP).
Qed.
