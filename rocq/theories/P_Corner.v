(** C83: the test whether a corner of the image lies in a cell. *)
From Coq Require Import ZArith Reals List Bool Arith Lia Lra.
From Flocq Require Import Core IEEE754.BinarySingleNaN.
From Verif Require Import GoNum FloatLemmas M_Norm M_Slice M_Geom S_Geom M_Image M_Raster S_Raster M_Delaunay S_Delaunay M_Voronoi S_Voronoi S_Corner L_PMap L_Geom L_Voronoi L_Voronoi2 L_Corner.
Import ListNotations.
Open Scope Z_scope.

(** On whole coordinates the test is exact for convex polygons, in either sense of rotation. *)
Theorem C83_whole : forall sense poly p, sense = 1 \/ sense = -1 ->
  Forall (fun q => Z.abs (px q) <= 2 ^ 24 /\ Z.abs (py q) <= 2 ^ 24) poly -> Z.abs (px p) <= 2 ^ 24 /\ Z.abs (py p) <= 2 ^ 24 -> convex sense poly ->
  polygon_point_intersect (map fpt poly) (fpt p) = true <-> in_convex sense poly p.
Proof. exact in_polygon. Qed.
Print Assumptions C83_whole.

(** On any coordinates up to 8192: a point that is 2^-22 (as twice the area of the triangle
    with the side) inside all sides passes, ... *)
Theorem C83_inside : forall polygon p, Forall moderate polygon -> moderate p ->
  (forall j a b, side_at polygon j a b -> (/ 4194304 <= left_of a b p)%R) \/ (forall j a b, side_at polygon j a b -> (left_of a b p <= - / 4194304)%R) ->
  polygon_point_intersect polygon p = true.
Proof.
  intros polygon p F Hp H. rewrite Forall_forall in F. apply intersect_true.
  assert (N : forall j a b, side_at polygon j a b -> fin (dcross p a b) /\ (Rabs (R64 (dcross p a b) + left_of a b p) <= / 4194304)%R).
  { intros j a b [A B]. apply dcross_near; [exact Hp|apply F; eapply nth_error_In; eassumption..]. }
  destruct H as [H|H]; [right|left]; intros j a b _ S; destruct (N j a b S) as [Fd D]; specialize (H j a b S); apply Rabs_le_inv in D; rewrite flt_R by (exact Fd || reflexivity); change (R64 f0) with 0%R; apply Rlt_bool_false; lra.
Qed.
Print Assumptions C83_inside.

(** ... and one that is more than that on the left of one side and on the right of another
    does not, unless it is a corner of the polygon. *)
Theorem C83_outside : forall polygon p j a b j' a' b', Forall moderate polygon -> moderate p ->
  (forall c, In c polygon -> R64 (nx c) <> R64 (nx p) \/ R64 (ny c) <> R64 (ny p)) ->
  side_at polygon j a b -> (/ 4194304 < left_of a b p)%R -> side_at polygon j' a' b' -> (left_of a' b' p < - / 4194304)%R ->
  polygon_point_intersect polygon p = false.
Proof.
  intros polygon p j a b j' a' b' F Hp NV S L S' L'. rewrite Forall_forall in F. apply not_true_iff_false. intros E.
  assert (N : forall j a b, side_at polygon j a b -> fin (dcross p a b) /\ (Rabs (R64 (dcross p a b) + left_of a b p) <= / 4194304)%R).
  { intros i x y [A B]. apply dcross_near; [exact Hp|apply F; eapply nth_error_In; eassumption..]. }
  apply intersect_iff in E.
  - destruct (N j a b S) as [Fd D]. destruct (N j' a' b' S') as [Fd' D']. apply Rabs_le_inv in D, D'. destruct E as [E|E].
    + specialize (E j a b ltac:(lia) S). cbv beta in E. rewrite flt_R in E by (exact Fd || reflexivity). change (R64 f0) with 0%R in E. rewrite Rlt_bool_true in E by lra. discriminate.
    + specialize (E j' a' b' ltac:(lia) S'). cbv beta in E. rewrite flt_R in E by (exact Fd' || reflexivity). change (R64 f0) with 0%R in E. rewrite Rlt_bool_true in E by lra. discriminate.
  - intros c I. apply not_true_iff_false. intros Q. apply npeq_R in Q; [|apply moderate_fin, F, I|apply moderate_fin, Hp]. destruct (NV c I); tauto.
Qed.
Print Assumptions C83_outside.

(** The corners added to a cell are corners of the image, and not outside the cell. *)
Theorem C83_corners : forall w h points ints c, 0 <= w <= 1920 -> 0 <= h <= 1920 -> In c (corners_of w h points ints) ->
  (is_finite (nx c) = true /\ is_finite (ny c) = true /\ (R64 (nx c) = 0%R \/ R64 (nx c) = IZR w) /\ (R64 (ny c) = 0%R \/ R64 (ny c) = IZR h)) /\
  (Forall moderate points -> (exists v, In v points /\ R64 (nx v) = R64 (nx c) /\ R64 (ny v) = R64 (ny c)) \/
    ~ (exists j a b j' a' b', side_at points j a b /\ (/ 4194304 < left_of a b c)%R /\ side_at points j' a' b' /\ (left_of a' b' c < - / 4194304)%R)).
Proof.
  intros w h points ints c Hw Hh I. unfold corners_of in I. destruct ints as [|i0 t]; [destruct I|]. apply in_concat in I. destruct I as (l & Il & Ic). apply in_map_iff in Il. destruct Il as ((e & i & j) & <- & Ie).
  destruct (negb (i =? -1) && negb (j =? -1) && polygon_point_intersect points (snd e)) eqn:E; [|destruct Ic]. destruct Ic as [<-|[]]. apply andb_true_iff in E. destruct E as [_ E]. apply in_combine_l in Ie.
  destruct (edges_ok w h e Hw Hh Ie) as (_ & _ & [F1 V1] & [F2 V2]). split; [auto|].
  assert (M : moderate (snd e)).
  { assert (0 <= IZR w <= 1920)%R by (split; apply IZR_le; lia). assert (0 <= IZR h <= 1920)%R by (split; apply IZR_le; lia). split; [exact F1|]. split; [exact F2|].
    split; apply Rabs_le; [destruct V1 as [-> | ->]|destruct V2 as [-> | ->]]; lra. }
  - intros F. destruct (existsb (fun v => npeq v (snd e)) points) eqn:X.
    + apply existsb_exists in X. destruct X as (v & Iv & Q). left. exists v. split; [exact Iv|]. rewrite Forall_forall in F. apply npeq_R in Q; [exact Q|apply moderate_fin, F, Iv|apply moderate_fin, M].
    + right. intros (j1 & a & b & j2 & a' & b' & S & L & S' & L'). rewrite (C83_outside points (snd e) j1 a b j2 a' b') in E; try assumption; [discriminate|].
      intros v Iv. destruct (Req_dec (R64 (nx v)) (R64 (nx (snd e)))) as [E1|E1]; [|auto]. destruct (Req_dec (R64 (ny v)) (R64 (ny (snd e)))) as [E2|E2]; [|auto]. exfalso.
      assert (T : existsb (fun v => npeq v (snd e)) points = true). { apply existsb_exists. exists v. split; [exact Iv|]. rewrite Forall_forall in F. apply npeq_R; [apply moderate_fin, F, Iv|apply moderate_fin, M|auto]. }
      congruence.
Qed.
Print Assumptions C83_corners.

(** A square; the point (12, 5) is on the wrong side of the closing side only. *)
Definition square : list point := [Pt 10 10; Pt 0 10; Pt 0 0; Pt 10 0].
Lemma square_sides j a b : side_at square j a b -> (a, b) = (Pt 10 10, Pt 0 10) \/ (a, b) = (Pt 0 10, Pt 0 0) \/ (a, b) = (Pt 0 0, Pt 10 0) \/ (a, b) = (Pt 10 0, Pt 10 10).
Proof. intros [A B]. destruct j as [|[|[|[|j]]]]; cbn in A, B; try (injection A as <-; injection B as <-; auto). destruct j; discriminate. Qed.
Example C83_case : convex 1 square /\ in_convex 1 square (Pt 3 9) /\ ~ in_convex 1 square (Pt 12 5) /\
  polygon_point_intersect (map fpt square) (fpt (Pt 3 9)) = true /\ polygon_point_intersect (map fpt square) (fpt (Pt 12 5)) = false.
Proof.
  assert (C : convex 1 square).
  { split.
    - intros j a b v S I. apply square_sides in S. cbn [In square] in I. destruct S as [[= -> ->]|[[= -> ->]|[[= -> ->]|[= -> ->]]]]; repeat (destruct I as [<-|I]; [unfold orient; cbn [px py]; lia|]); destruct I.
    - exists 0%nat, (Pt 10 10), (Pt 0 10), (Pt 0 0). split; [split; reflexivity|]. split; [cbn; auto|]. unfold orient. cbn [px py]. lia. }
  split; [exact C|]. split; [|split; [|split; vm_compute; reflexivity]].
  - intros j a b S. apply square_sides in S. destruct S as [[= -> ->]|[[= -> ->]|[[= -> ->]|[= -> ->]]]]; unfold orient; cbn [px py]; lia.
  - intros H. specialize (H 3%nat (Pt 10 0) (Pt 10 10) ltac:(split; reflexivity)). unfold orient in H. cbn [px py] in H. lia.
Qed.
