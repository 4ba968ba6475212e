(** C85: HasPoint and GetClosestTo answer from the points held, after every history. *)
From Coq Require Import ZArith List Bool Lia Permutation.
From Verif Require Import GoNum M_Norm M_Slice M_Geom S_Geom M_Image M_Raster S_Raster M_Delaunay S_Delaunay S_Remove
  L_Raster1 L_Raster6 L_PMap L_GMap L_Super L_Slots L_Slots2 L_Plane L_BW L_Toggle L_Count L_Insert L_Circle L_Hist L_Lookup L_Reach L_Tiles L_Ear L_EarLoop L_Link L_Angle L_Score L_Remove L_VorGeo L_Centres P_Delaunay P_Remove P_Closest.
Import ListNotations.
Open Scope Z_scope.

(** What the scan of HasPoint returns on triangles that exist and are in use. *)
Lemma has_point_spec tris p l : (forall i, In i l -> exists t, znth tris i = Some t /\ is_freed t = false) ->
  exists b, has_point_loop tris p l = Some b /\ (b = true <-> exists i t, In i l /\ znth tris i = Some t /\ has_vertex t p = true).
Proof.
  induction l as [|i l IH]; intros H; cbn [has_point_loop].
  - exists false. split; [reflexivity|]. split; [discriminate|]. intros (i & t & [] & _).
  - destruct (H i (or_introl eq_refl)) as (t & Et & Ft). rewrite Et, Ft. destruct (has_vertex t p) eqn:V.
    + exists true. split; [reflexivity|]. split; [|reflexivity]. intros _. exists i, t. cbn [In]. auto.
    + destruct IH as (b & E & K); [intros j J; apply H; right; exact J|]. exists b. split; [exact E|]. rewrite K. split; intros (j & u & I & Eu & Vu).
      * exists j, u. cbn [In]. auto.
      * destruct I as [<-|I]; [|exists j, u; auto]. exfalso. rewrite Et in Eu. injection Eu as <-. congruence.
Qed.
Lemma corner_point w h P d t p : size_ok w h -> dstate_ok w h P d -> in_image w h p -> In t (live (d_tris d)) -> In p (verts (ccw t)) -> In p P.
Proof.
  intros S O Hp I V. pose proof (dt_verts _ _ _ (ds_del _ _ _ _ O) (ccw t) p (in_map ccw _ _ I) V) as K. apply in_app_or in K. destruct K as [K|K]; [|exact K].
  exfalso. pose proof (sup_inner w h p S Hp) as IN. unfold inner, inside in IN. rewrite !oloc_at in IN. unfold orient in IN. clear - IN K. destruct (sup w h) as [u v x]. cbn [verts In ta tb tc] in *. destruct K as [<-|[<-|[<-|[]]]]; lia.
Qed.
Lemma state_has_point w h P d p : small_size w h -> dstate_ok w h P d -> in_image w h p -> exists b, has_point d p = Some b /\ (b = true <-> In p P).
Proof.
  intros SM O Hp. pose proof (small_ok _ _ SM) as S. pose proof (small_complete w h P d p SM O Hp) as LC.
  destruct (group_ok w h P d p S O Hp) as (l & El & Hl). unfold has_point, grid_has_point. rewrite El.
  destruct (has_point_spec (d_tris d) p l) as (b & Eb & Hb); [intros i I; apply Hl in I; destruct I as (t & Et & Ft & _); eauto|]. exists b. split; [exact Eb|]. rewrite Hb. split.
  - intros (i & t & I & Et & V). apply Hl in I. destruct I as (u & Eu & Fu & _). rewrite Et in Eu. injection Eu as <-. apply (corner_point w h P d t p S O Hp); [apply live_In; split; [eapply znth_In; exact Et|exact Fu]|apply has_vertex_iff, V].
  - intros I. destruct (st_used w h P d O p I) as (t & It & J). assert (V : In p (verts (ccw t))) by (apply ccw_verts; cbn in J; intuition auto).
    pose proof It as It'. apply live_In in It as [It Ft]. apply In_nth_error in It as (n & En). assert (Et : znth (d_tris d) (Z.of_nat n) = Some t).
    { unfold znth. destruct (Z.ltb_spec (Z.of_nat n) 0); [lia|]. rewrite Nat2Z.id. exact En. }
    exists (Z.of_nat n), t. split; [|split; [exact Et|apply has_vertex_iff, V]]. apply Hl. exists t. split; [exact Et|]. split; [exact Ft|]. apply LC; [exact It'|]. rewrite tinc_vert by exact V. lia.
Qed.

(** C85: HasPoint does not panic on a point of the image and tells whether it is held. *)
Theorem C85_has_point : forall sort w h ops Q d p, usual_size w h -> sorts_hulls sort -> valid_ops w h [] ops Q -> history sort w h ops = Some d -> in_image w h p ->
  has_point d p = Some (if in_dec point_eq_dec p Q then true else false).
Proof.
  intros sort w h ops Q d p S SO V E Hp. destruct (history_is _ _ _ _ _ _ S SO V E) as [S' O]. destruct (state_has_point w h Q d p (usual_small _ _ S) O Hp) as (b & -> & K).
  f_equal. destruct (in_dec point_eq_dec p Q) as [I|I]; [apply K, I|]. destruct b; [|reflexivity]. exfalso. apply I, K. reflexivity.
Qed.
Print Assumptions C85_has_point.

(** C85: GetClosestTo returns a nearest one of the points held, after insertions and removals. *)
Theorem C85_closest : forall sort w h ops Q d p, usual_size w h -> 4 <= Z.max w h -> sorts_hulls sort -> valid_ops w h [] ops Q -> history sort w h ops = Some d -> Q <> [] -> in_image w h p ->
  nearest p Q (get_closest_to d p).
Proof.
  intros sort w h ops Q d p US H4 SO V E N Hp. destruct (history_is _ _ _ _ _ _ US SO V E) as [S O]. pose proof (ds_in _ _ _ _ O) as Hin.
  assert (C : forall q, In q (corners d) -> In q (verts (sup w h)) \/ In q Q).
  { intros q I. unfold corners in I. apply in_flat_map in I as (t & It & I). pose proof (dt_verts _ _ _ (ds_del _ _ _ _ O) (ccw t) q (in_map ccw _ _ It)) as K.
    rewrite ccw_verts in K. specialize (K ltac:(cbn in I; intuition auto)). apply in_app_or in K. exact K. }
  assert (D : forall q, In q Q -> In q (corners d)).
  { intros q I. destruct (st_used w h Q d O q I) as (t & It & J). unfold corners. apply in_flat_map. exists t. split; assumption. }
  destruct (closest_ok w h d p S Hp) as [A B].
  - intros q I. destruct (C q I) as [K|K]; [left; exact K|right; apply Hin, K].
  - destruct Q as [|q l]; [contradiction|]. intros Z0. specialize (D q (or_introl eq_refl)). rewrite Z0 in D. exact D.
  - split; [|intros q I; apply B, D, I]. destruct (C _ A) as [K|K]; [|exact K]. exfalso. destruct Q as [|q l]; [contradiction|].
    pose proof (super_far w h p q _ S H4 Hp (Hin q (or_introl eq_refl)) K). specialize (B q (D q (or_introl eq_refl))). lia.
Qed.
Print Assumptions C85_closest.

(** The two agree: a point is held if and only if it is its own closest point. *)
Theorem C85_agree : forall sort w h ops Q d p, usual_size w h -> 4 <= Z.max w h -> sorts_hulls sort -> valid_ops w h [] ops Q -> history sort w h ops = Some d -> Q <> [] -> in_image w h p ->
  (has_point d p = Some true <-> get_closest_to d p = p).
Proof.
  intros sort w h ops Q d p US H4 SO V E N Hp. rewrite (C85_has_point sort w h ops Q d p US SO V E Hp). destruct (C85_closest sort w h ops Q d p US H4 SO V E N Hp) as [A B].
  destruct (in_dec point_eq_dec p Q) as [I|I]; (split; [intros K|intros K]); try reflexivity; try discriminate.
  - specialize (B p I). unfold sqdist in B. destruct p as [x y], (get_closest_to d (Pt x y)) as [u v]. cbn [px py] in B. rewrite !Z.sub_diag in B. pose proof (Z.square_nonneg (x - u)). pose proof (Z.square_nonneg (y - v)).
    assert (x - u = 0) by (clear - B H H0; nia). assert (y - v = 0) by (clear - B H H0; nia). f_equal; lia.
  - exfalso. rewrite K in A. contradiction.
Qed.
Print Assumptions C85_agree.

(** After insertions and removals: a point held, one removed, one never there, and the nearest
    points of two locations (both were other points before the removals). *)
Definition asked : option (list (option bool) * list point) :=
  option_map (fun d => (map (has_point d) [Pt 33 61; Pt 50 20; Pt 80 20; Pt 1 1; Pt 100 0; Pt (-1) 5], map (get_closest_to d) [Pt 50 15; Pt 80 25])) (history insertion_sort 100 100 sample_ops).
Example C85_case : asked = Some ([Some true; Some false; Some false; Some false; Some true; None], [Pt 20 20; Pt 100 0]).
Proof. vm_compute. reflexivity. Qed.
