(** C48: Remove, and C41-C47, C58 for histories with removals. *)
From Coq Require Import ZArith List Bool Lia Permutation.
From Verif Require Import GoNum M_Norm M_Slice M_Geom S_Geom M_Image M_Raster S_Raster M_Delaunay S_Delaunay S_Remove
  L_Raster1 L_Raster6 L_PMap L_GMap L_Super L_Slots L_Slots2 L_Plane L_BW L_Toggle L_Count L_Insert L_Circle L_Hist L_Lookup L_Reach L_Tiles L_Ear L_EarLoop L_Link L_Angle L_Score L_Remove P_Delaunay.
Import ListNotations.
Open Scope Z_scope.

(** Sizes from 2x1 to 1920x1920. *)
Definition usual_size (w h : Z) : Prop := 1 <= w <= 1920 /\ 1 <= h <= 1920 /\ ~ (w = 1 /\ h = 1).

(** [valid_ops w h P ops Q]: starting with the multiset P, the operations insert
    points of the image, never hold more than 32765 points and remove only points
    that are present; Q is the multiset in the end. *)
Inductive valid_ops (w h : Z) : list point -> list mop -> list point -> Prop :=
| vo_nil P : valid_ops w h P [] P
| vo_add P p ops Q : in_image w h p -> Z.of_nat (length P) < 32765 -> valid_ops w h (p :: P) ops Q -> valid_ops w h P (MAdd p :: ops) Q
| vo_remove P p P' ops Q : take_out p P = Some P' -> valid_ops w h P' ops Q -> valid_ops w h P (MRemove p :: ops) Q.

(** Insert and Remove in sequence, starting with NewDelaunay. [sort p] is sort.Slice
    with the comparison of delaunay.go:187-205 around the point p. *)
Definition apply_op (sort : point -> list point -> option (list point)) (d : delaunay) (o : mop) : option delaunay :=
  match o with MAdd p => insert d p | MRemove p => remove (sort p) d p end.
Definition history (sort : point -> list point -> option (list point)) (w h : Z) (ops : list mop) : option delaunay :=
  match new_delaunay w h with None => None | Some d => foldM (apply_op sort) ops d end.
Definition sorts_hulls (sort : point -> list point -> option (list point)) : Prop := forall p, sorts (hull_less p) (sort p).

Lemma usual_small w h : usual_size w h -> small_size w h.
Proof. unfold usual_size, small_size. lia. Qed.
Lemma distinct_le l : distinct l <= Z.of_nat (length l).
Proof. unfold distinct. pose proof (NoDup_incl_length (NoDup_nodup point_eq_dec l) (l' := l) (fun x I => proj1 (nodup_In _ _ _) I)). lia. Qed.
Lemma history_from sort w h : usual_size w h -> sorts_hulls sort -> forall P ops Q, valid_ops w h P ops Q -> Z.of_nat (length P) <= 32765 -> forall d, dstate_ok w h P d ->
  exists d', foldM (apply_op sort) ops d = Some d' /\ dstate_ok w h Q d'.
Proof.
  intros S SO. apply usual_small in S. pose proof (small_ok _ _ S) as S'. induction 1 as [P|P p ops Q Hp L V IH|P p P' ops Q T V IH]; intros LP d O; cbn [foldM apply_op].
  - exists d. auto.
  - pose proof (distinct_le (p :: P)) as DL. cbn [length] in DL. pose proof (count_occ_bound point_eq_dec p P).
    destruct (insert_ok w h P d p S' O Hp (small_complete w h P d p S O Hp)) as (d1 & -> & O1); [unfold mult; lia|lia|]. apply IH; [cbn [length]; lia|exact O1].
  - pose proof (take_out_spec _ _ _ T) as TP. pose proof (distinct_le P) as DL.
    assert (Hp : in_image w h p) by (apply (ds_in _ _ _ _ O); eapply Permutation_in; [exact TP|left; reflexivity]).
    destruct (remove_ok w h P d p P' (sort p) S O Hp T (SO p)) as (d1 & -> & O1); [lia|]. apply IH; [|exact O1]. apply Permutation_length in TP. cbn [length] in TP. lia.
Qed.
Lemma history_eq sort w h ops d : new_delaunay w h = Some d -> history sort w h ops = foldM (apply_op sort) ops d.
Proof. unfold history. intros ->. reflexivity. Qed.
Lemma history_ok sort w h ops Q : usual_size w h -> sorts_hulls sort -> valid_ops w h [] ops Q -> exists d, history sort w h ops = Some d /\ dstate_ok w h Q d.
Proof.
  intros S SO V. pose proof (small_ok _ _ (usual_small _ _ S)) as S'. destruct (new_delaunay_ok w h S') as (d & E & O). rewrite (history_eq _ _ _ _ _ E).
  apply (history_from sort w h S SO [] ops Q V); [change (Z.of_nat (length (@nil point))) with 0; lia|exact O].
Qed.
Lemma history_is sort w h ops Q d : usual_size w h -> sorts_hulls sort -> valid_ops w h [] ops Q -> history sort w h ops = Some d -> size_ok w h /\ dstate_ok w h Q d.
Proof.
  intros S SO V E. destruct (history_ok sort w h ops Q S SO V) as (d' & E' & O). assert (EQ : d' = d) by exact (some_inj _ _ _ E' E). subst d'. split; [apply small_ok, usual_small, S|exact O].
Qed.

(** C48: no operation of such a history panics. *)
Theorem C48_no_panic : forall sort w h ops Q, usual_size w h -> sorts_hulls sort -> valid_ops w h [] ops Q -> exists d, history sort w h ops = Some d.
Proof. intros sort w h ops Q S SO V. destruct (history_ok sort w h ops Q S SO V) as (d & E & _). eauto. Qed.
Print Assumptions C48_no_panic.

(** C48: no point that was inserted and not removed lies strictly inside the
    circumcircle of a triangle in use. *)
Theorem C48_delaunay : forall sort w h ops Q d, usual_size w h -> sorts_hulls sort -> valid_ops w h [] ops Q -> history sort w h ops = Some d ->
  forall t p, In t (used d) -> In p Q -> ~ in_circumcircle (d_a t) (d_b t) (d_c t) p.
Proof. intros sort w h ops Q d S SO V E t p I J. destruct (history_is _ _ _ _ _ _ S SO V E) as [S' O]. eapply st_empty; eauto. Qed.
Print Assumptions C48_delaunay.

(** C48: the triangles in use have area, ... *)
Theorem C48_nondegenerate : forall sort w h ops Q d, usual_size w h -> sorts_hulls sort -> valid_ops w h [] ops Q -> history sort w h ops = Some d ->
  forall t, In t (used d) -> orient (d_a t) (d_b t) (d_c t) <> 0.
Proof. intros sort w h ops Q d S SO V E t I. destruct (history_is _ _ _ _ _ _ S SO V E) as [S' O]. eapply st_nondeg; eauto. Qed.
Print Assumptions C48_nondegenerate.

(** ... cover each location of the enclosing triangle once, ... *)
Theorem C48_cover_once : forall sort w h ops Q d, usual_size w h -> sorts_hulls sort -> valid_ops w h [] ops Q -> history sort w h ops = Some d ->
  forall X Y M, 0 < M -> (let s := new_super_triangle w h in loc_inside X Y M (d_a s) (d_b s) (d_c s)) ->
  exists l1 t l2, used d = l1 ++ t :: l2 /\ loc_within X Y M (d_a t) (d_b t) (d_c t) /\
    forall u, In u (l1 ++ l2) -> ~ loc_inside X Y M (d_a u) (d_b u) (d_c u).
Proof. intros sort w h ops Q d S SO V E. destruct (history_is _ _ _ _ _ _ S SO V E) as [S' O]. exact (st_covers w h Q d S' O). Qed.
Print Assumptions C48_cover_once.

(** ... no two of them lie on the same side of a common edge, ... *)
Theorem C48_side_once : forall sort w h ops Q d, usual_size w h -> sorts_hulls sort -> valid_ops w h [] ops Q -> history sort w h ops = Some d ->
  forall l1 t l2 a b, used d = l1 ++ t :: l2 -> left_of a b t -> forall u, In u (l1 ++ l2) -> ~ left_of a b u.
Proof. intros sort w h ops Q d S SO V E. destruct (history_is _ _ _ _ _ _ S SO V E) as [S' O]. exact (st_side_once w h Q d O). Qed.
Print Assumptions C48_side_once.

(** ... and every edge that is not an outer one has a triangle on its other side. *)
Theorem C48_neighbour : forall sort w h ops Q d, usual_size w h -> sorts_hulls sort -> valid_ops w h [] ops Q -> history sort w h ops = Some d ->
  forall t a b, In t (used d) -> left_of a b t ->
  (exists u, In u (used d) /\ left_of b a u) \/
  (let s := new_super_triangle w h in In a [d_a s; d_b s; d_c s] /\ In b [d_a s; d_b s; d_c s]).
Proof.
  intros sort w h ops Q d S SO V E t a b I L. destruct (history_is _ _ _ _ _ _ S SO V E) as [S' O].
  destruct (st_neighbour w h Q d O t a b I L) as [N|[A B]]; [left; exact N|right]. cbv zeta. rewrite <- !(sup_in_super w h S'). auto.
Qed.
Print Assumptions C48_neighbour.

(** C48: IterTriangles reports only triangles between points that were inserted and
    not removed, and each such point is a corner of a triangle in use. *)
Theorem C48_visible : forall sort w h ops Q d, usual_size w h -> sorts_hulls sort -> valid_ops w h [] ops Q -> history sort w h ops = Some d ->
  (forall t, In t (iter_triangles d) -> In (d_a t) Q /\ In (d_b t) Q /\ In (d_c t) Q) /\
  (forall p, In p Q -> exists t, In t (used d) /\ In p [d_a t; d_b t; d_c t]).
Proof.
  intros sort w h ops Q d S SO V E. destruct (history_is _ _ _ _ _ _ S SO V E) as [S' O]. split.
  - intros t I. repeat split; eapply (st_visible w h Q d S' O); eauto; cbn; auto.
  - intros p I. eapply st_used; eauto.
Qed.
Print Assumptions C48_visible.

(** C48: no triangle in use has a removed point as a corner. *)
Theorem C48_gone : forall sort w h ops Q d p, usual_size w h -> sorts_hulls sort -> valid_ops w h [] ops Q -> history sort w h ops = Some d ->
  in_image w h p -> ~ In p Q -> forall t, In t (used d) -> ~ In p [d_a t; d_b t; d_c t].
Proof.
  intros sort w h ops Q d p S SO V E Hp N t I J. destruct (history_is _ _ _ _ _ _ S SO V E) as [S' O]. apply N.
  assert (V' : In p (verts (ccw t))) by (apply ccw_verts; cbn in J; intuition).
  pose proof (dt_verts _ _ _ (ds_del _ _ _ _ O) (ccw t) p (in_map ccw _ _ I) V') as K. apply in_app_or in K. destruct K as [K|K]; [|exact K].
  exfalso. pose proof (sup_inner w h p S' Hp) as IN. unfold inner, inside in IN. rewrite !oloc_at in IN. unfold orient in IN. clear - IN K. destruct (sup w h) as [u v x]. cbn [verts In ta tb tc] in *. destruct K as [<-|[<-|[<-|[]]]]; lia.
Qed.
Print Assumptions C48_gone.

(** C48: removing one of several copies of a point changes no triangle. *)
Theorem C48_copies : forall sort w h ops Q d p, usual_size w h -> sorts_hulls sort -> valid_ops w h [] ops Q -> history sort w h ops = Some d ->
  2 <= mult Q p -> exists d', remove (sort p) d p = Some d' /\ d_tris d' = d_tris d /\ iter_triangles d' = iter_triangles d /\ num_points d' = num_points d - 1.
Proof.
  intros sort w h ops Q d p S SO V E M. destruct (history_is _ _ _ _ _ _ S SO V E) as [S' O]. destruct (take_out p Q) as [Q'|] eqn:T.
  - assert (Hp : in_image w h p) by (apply (ds_in _ _ _ _ O); apply take_out_spec in T; eapply Permutation_in; [exact T|left; reflexivity]).
    pose proof (remove_point_ok (d_pmap d) Q p (ds_pm _ _ _ _ O) (in_image_hashable _ _ _ S' Hp)) as RP. rewrite T in RP. destruct RP as (pm & E1 & _ & _).
    unfold remove. rewrite E1. assert (M' : mult Q' p = mult Q p - 1).
    { apply take_out_spec in T. unfold mult in *. rewrite (Permutation_count_occ point_eq_dec) in T. rewrite <- (T p). cbn [count_occ]. destruct (point_eq_dec p p); [lia|contradiction]. }
    destruct (Z.eqb_spec (mult Q' p) 0); [lia|]. cbn [negb]. eexists. split; [reflexivity|]. cbn [d_tris]. repeat split.
  - exfalso. assert (I : In p Q) by (apply (count_occ_In point_eq_dec); unfold mult in M; lia). clear - T I. induction Q as [|q Q IH]; [contradiction|].
    cbn [take_out] in T. destruct (point_eq_dec q p); [discriminate|]. destruct I as [|I]; [contradiction|]. destruct (take_out p Q); [discriminate|]. auto.
Qed.
Print Assumptions C48_copies.

(** C48: the pixels of the triangles IterTriangles reports are all different. *)
Theorem C48_disjoint_pixels : forall sort w h ops Q d, usual_size w h -> sorts_hulls sort -> valid_ops w h [] ops Q -> history sort w h ops = Some d ->
  NoDup (flat_map (fun t => dda_pixels (Tri (d_a t) (d_b t) (d_c t))) (iter_triangles d)).
Proof. intros sort w h ops Q d S SO V E. destruct (history_is _ _ _ _ _ _ S SO V E) as [S' O]. exact (st_pixels w h Q d S' O). Qed.
Print Assumptions C48_disjoint_pixels.

(** C48: with k different points at most 2k + 6 triangles are in use, removals or not. *)
Theorem C48_count : forall sort w h ops Q d, usual_size w h -> sorts_hulls sort -> valid_ops w h [] ops Q -> history sort w h ops = Some d ->
  (length (used d) <= 2 * length (nodup point_eq_dec Q) + 6)%nat.
Proof.
  intros sort w h ops Q d S SO V E. destruct (history_is _ _ _ _ _ _ S SO V E) as [S' O]. pose proof (delaunay_count _ _ _ _ (ds_del _ _ _ _ O)) as K.
  rewrite map_length in K. unfold used, live, distinct in *. lia.
Qed.
Print Assumptions C48_count.

(** Insertion sort, which sort.Slice uses on short slices, sorts hulls. *)
Example insertion_sorts_hulls : sorts_hulls insertion_sort.
Proof. intros p. apply insertion_sorts. Qed.

(** A history with removals of cocircular, collinear and repeated points. *)
Definition sample_ops : list mop := map MAdd sample ++ [MRemove (Pt 50 50); MRemove (Pt 80 20); MAdd (Pt 33 61); MRemove (Pt 80 20); MAdd (Pt 50 50); MRemove (Pt 50 20)].
Example sample_ops_valid : valid_ops 100 100 [] sample_ops [Pt 50 50; Pt 33 61; Pt 0 57; Pt 100 0; Pt 20 80; Pt 80 80; Pt 20 20].
Proof.
  unfold sample_ops, sample. cbn [map app].
  repeat first [apply vo_nil | apply vo_add; [unfold in_image; cbn [px py]; lia|cbn [length]; lia|] | eapply vo_remove; [reflexivity|]].

Qed.
Example sample_ops_result : option_map (fun d => (length (used d), length (iter_triangles d), length (d_free d), length (flat_map dpix (iter_triangles d)))) (history insertion_sort 100 100 sample_ops)
  = Some (15%nat, 7%nat, 2%nat, 5369%nat).
Proof. vm_compute. reflexivity. Qed.
