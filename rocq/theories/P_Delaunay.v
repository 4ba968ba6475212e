(** C41, C42, C43, C45, C46, C47, C58: the triangulation after histories of operations. *)
From Coq Require Import ZArith List Bool Lia Permutation.
From Verif Require Import GoNum M_Norm M_Slice M_Geom S_Geom M_Image M_Raster S_Raster M_Delaunay S_Delaunay
  L_Raster1 L_Raster6 L_PMap L_GMap L_Super L_Slots L_Slots2 L_Plane L_BW L_Toggle L_Count L_Insert L_Circle L_Hist L_Lookup L_Reach L_Tiles.
Import ListNotations.
Open Scope Z_scope.

(** The histories of C45-C47, C58: any image size from 2x1 to 1920x1920, any points
    of the image (duplicates, collinear and cocircular points included). For sizes up
    to 8191x8191 the theorems hold as long as each look-up of the circumcircle grid is
    complete; C44_complete shows that it is up to 1920x1920, C44_large_refuted that
    it need not be for larger ones. *)
Definition good_history (w h : Z) (ps : list point) : Prop :=
  good_size w h /\ Forall (in_image w h) ps /\ (Z.max w h <= 1920 \/ lookups_ok w h ps) /\ Z.of_nat (length ps) <= 32765.

Lemma good_lookups w h ps : good_history w h ps -> lookups_ok w h ps.
Proof.
  intros (A & B & [C|C] & D); [|exact C]. apply small_lookups; [|exact B|exact D]. unfold good_size in A. unfold small_size. lia.
Qed.

(** The triangles in use. *)
Definition used (d : delaunay) : list dtri := filter (fun t => negb (is_freed t)) (d_tris d).

(** Insert never panics on such a history. *)
Theorem C45_no_panic : forall w h ps, good_history w h ps -> exists d, inserts w h ps = Some d.
Proof. intros w h ps H. pose proof (good_lookups _ _ _ H) as C. destruct H as (A & B & _ & D). destruct (inserts_ok w h ps A B C D) as (d & E & _). exists d. exact E. Qed.
Print Assumptions C45_no_panic.

Lemma some_inj {A} (o : option A) x y : o = Some x -> o = Some y -> x = y.
Proof. congruence. Qed.
Lemma history_state w h ps d : good_history w h ps -> inserts w h ps = Some d -> size_ok w h /\ dstate_ok w h (rev ps) d.
Proof.
  intros H E. pose proof (good_lookups _ _ _ H) as C. destruct H as (A & B & _ & D). destruct (inserts_ok w h ps A B C D) as (d' & E' & O). assert (EQ : d' = d) by exact (some_inj _ _ _ E' E). subst d'.
  split; [apply good_size_ok, A|exact O].
Qed.

(** C45: no inserted point lies strictly inside the circumcircle of a triangle in use. *)
Theorem C45_delaunay : forall w h ps d, good_history w h ps -> inserts w h ps = Some d ->
  forall t p, In t (used d) -> In p ps -> ~ in_circumcircle (d_a t) (d_b t) (d_c t) p.
Proof.
  intros w h ps d H E t p I J. destruct (history_state _ _ _ _ H E) as [S O]. apply in_rev in J. eapply st_empty; eauto.
Qed.
Print Assumptions C45_delaunay.

(** C46: the triangles in use have area, ... *)
Theorem C46_nondegenerate : forall w h ps d, good_history w h ps -> inserts w h ps = Some d ->
  forall t, In t (used d) -> orient (d_a t) (d_b t) (d_c t) <> 0.
Proof. intros w h ps d H E t I. destruct (history_state _ _ _ _ H E) as [S O]. eapply st_nondeg; eauto. Qed.
Print Assumptions C46_nondegenerate.

(** ... every location of the plane (with rational coordinates) inside the enclosing
    triangle is in a closed triangle in use and in the interior of no other one, ... *)
Theorem C46_cover_once : forall w h ps d, good_history w h ps -> inserts w h ps = Some d ->
  forall X Y M, 0 < M -> (let s := new_super_triangle w h in loc_inside X Y M (d_a s) (d_b s) (d_c s)) ->
  exists l1 t l2, used d = l1 ++ t :: l2 /\ loc_within X Y M (d_a t) (d_b t) (d_c t) /\
    forall u, In u (l1 ++ l2) -> ~ loc_inside X Y M (d_a u) (d_b u) (d_c u).
Proof. intros w h ps d H E. destruct (history_state _ _ _ _ H E) as [S O]. exact (st_covers w h (rev ps) d S O). Qed.
Print Assumptions C46_cover_once.

(** ... no two lie on the same side of a common edge, ... *)
Theorem C46_side_once : forall w h ps d, good_history w h ps -> inserts w h ps = Some d ->
  forall l1 t l2 a b, used d = l1 ++ t :: l2 -> left_of a b t -> forall u, In u (l1 ++ l2) -> ~ left_of a b u.
Proof. intros w h ps d H E. destruct (history_state _ _ _ _ H E) as [S O]. exact (st_side_once w h (rev ps) d O). Qed.
Print Assumptions C46_side_once.

(** ... and every edge has a triangle on its other side, or joins two corners of the
    enclosing triangle. *)
Theorem C46_neighbour : forall w h ps d, good_history w h ps -> inserts w h ps = Some d ->
  forall t a b, In t (used d) -> left_of a b t ->
  (exists u, In u (used d) /\ left_of b a u) \/
  (let s := new_super_triangle w h in In a [d_a s; d_b s; d_c s] /\ In b [d_a s; d_b s; d_c s]).
Proof.
  intros w h ps d H E t a b I L. destruct (history_state _ _ _ _ H E) as [S O].
  destruct (st_neighbour w h (rev ps) d O t a b I L) as [N|[A B]]; [left; exact N|right]. cbv zeta. rewrite <- !(sup_in_super w h S). auto.
Qed.
Print Assumptions C46_neighbour.

(** C47: IterTriangles reports only triangles between inserted points, and each
    inserted point is a corner of a triangle in use. *)
Theorem C47_visible : forall w h ps d, good_history w h ps -> inserts w h ps = Some d ->
  (forall t, In t (iter_triangles d) -> In (d_a t) ps /\ In (d_b t) ps /\ In (d_c t) ps) /\
  (forall p, In p ps -> exists t, In t (used d) /\ In p [d_a t; d_b t; d_c t]).
Proof.
  intros w h ps d H E. destruct (history_state _ _ _ _ H E) as [S O]. split.
  - intros t I. repeat split; apply in_rev; eapply (st_visible w h (rev ps) d S O); eauto; cbn; auto.
  - intros p I. apply in_rev in I. eapply st_used; eauto.
Qed.
Print Assumptions C47_visible.

(** C58: the pixels of the triangles IterTriangles reports, in one list, are all different. *)
Theorem C58_disjoint_pixels : forall w h ps d, good_history w h ps -> inserts w h ps = Some d ->
  NoDup (flat_map (fun t => dda_pixels (Tri (d_a t) (d_b t) (d_c t))) (iter_triangles d)).
Proof. intros w h ps d H E. destruct (history_state _ _ _ _ H E) as [S O]. exact (st_pixels w h (rev ps) d S O). Qed.
Print Assumptions C58_disjoint_pixels.

(** A history with a duplicate, four cocircular points and three collinear ones. *)
Definition sample : list point := [Pt 20 20; Pt 80 20; Pt 80 80; Pt 20 80; Pt 50 50; Pt 80 20; Pt 50 20; Pt 100 0; Pt 0 57].
Example sample_good : good_history 100 100 sample.
Proof.
  split; [unfold good_size; lia|]. split; [repeat constructor; cbn; lia|]. split; [left; lia|cbn; lia].
Qed.
Example sample_result : option_map (fun d => (length (used d), length (iter_triangles d), length (flat_map dpix (iter_triangles d)))) (inserts 100 100 sample)
  = Some (17%nat, 9%nat, 5369%nat).
Proof. vm_compute. reflexivity. Qed.

(* ---------------------------------------------------------------- *)
(** * Histories of insertions and removals, without any assumption on look-ups *)

(** C42: a slot is on the free list exactly when it is marked free, and only once. *)
Theorem C42_free_list : forall w h P d, good_size w h -> reach w h P d ->
  NoDup (d_free d) /\ forall i, In i (d_free d) <-> exists t, nth_error (d_tris d) (Z.to_nat i) = Some t /\ 0 <= i /\ px (d_a t) = -1.
Proof.
  intros w h P d S R. apply good_size_ok in S. pose proof (rs_slots _ _ _ (proj1 (reach_ok w h P d S R))) as K. split; [apply K|].
  intros i. rewrite (s_free _ _ _ _ K i). split.
  - intros (t & E & F). exists t. apply znth_Some in E. destruct E as [Hi E]. repeat split; [exact E|lia|apply Z.eqb_eq, F].
  - intros (t & E & Hi & F). exists t. split; [|apply Z.eqb_eq, F]. rewrite <- (Z2Nat.id i Hi), znth_nat. exact E.
Qed.
Print Assumptions C42_free_list.

(** C42: so no operation overwrites or duplicates a triangle: Insert keeps every
    triangle it does not remove and adds one per boundary edge it connects. *)
Theorem C42_insert_keeps : forall w h P d p d', good_size w h -> reach w h P d -> in_image w h p -> insert d p = Some d' -> Z.of_nat (length (d_tris d')) <= 65536 ->
  exists kept gone new, Permutation (used d) (gone ++ kept) /\ Permutation (used d') (new ++ kept) /\
    (forall t, In t gone -> contains_point t p = true) /\ (forall t, In t new -> d_c t = p).
Proof. intros w h P d p d' S R Hp E L. apply good_size_ok in S. exact (insert_keeps w h d p d' S (proj1 (reach_ok w h P d S R)) Hp E L). Qed.
Print Assumptions C42_insert_keeps.

(** C43: a cell of the grid lists exactly the triangles in use whose circumcircle box
    covers the cell, each once. *)
Theorem C43_cells : forall w h P d x y l, good_size w h -> reach w h P d -> cell (d_grid d) x y = Some l ->
  NoDup l /\ forall i, In i l <-> exists t, znth (d_tris d) i = Some t /\ px (d_a t) <> -1 /\
    d_circ t = calc_circumcircle (d_a t) (d_b t) (d_c t) /\
    let '(x0, y0, x1, y1) := circle_box (d_grid d) (d_circ t) in x0 <= x < x1 /\ y0 <= y < y1.
Proof.
  intros w h P d x y l S R E. apply good_size_ok in S. pose proof (proj1 (reach_ok w h P d S R)) as O. pose proof (rs_slots _ _ _ O) as K. split; [eapply s_cell_nodup; eauto|].
  intros i. rewrite (s_cell _ _ _ _ K x y l i E).
  assert (B : forall t, In (x, y) (box_cells (d_grid d) (d_circ t)) <-> let '(x0, y0, x1, y1) := circle_box (d_grid d) (d_circ t) in x0 <= x < x1 /\ y0 <= y < y1).
  { intros t. unfold box_cells. destruct (circle_box (d_grid d) (d_circ t)) as [[[x0 y0] x1] y1]. rewrite in_flat_map. split.
    - intros (a & I & J). apply in_map_iff in J. destruct J as (b & [= -> ->] & J). apply zfor_In in I. apply zfor_In in J. auto.
    - intros [I J]. exists x. split; [apply zfor_In, I|]. apply in_map_iff. exists y. split; [reflexivity|apply zfor_In, J]. }
  split; intros (t & A & C); exists t.
  - destruct C as [C D]. split; [exact A|]. split; [apply Z.eqb_neq, C|]. split; [|apply B, D]. apply (rs_own _ _ _ O). apply live_In. split; [eapply znth_In; exact A|exact C].
  - destruct C as (C & _ & D). split; [exact A|]. split; [apply Z.eqb_neq, C|apply B, D].
Qed.
Print Assumptions C43_cells.

(** C43: the panics of Insert are unreachable while at most 21845 triangles are in
    use: neither a freed slot in a cell ("UH OH") nor a bad index is met. *)
Theorem C43_no_panic : forall w h P d p, good_size w h -> reach w h P d -> in_image w h p -> mult P p < 65535 ->
  Z.of_nat (length (used d)) <= 21845 -> exists d', insert d p = Some d'.
Proof.
  intros w h P d p S R Hp Hm L. apply good_size_ok in S. destruct (reach_ok w h P d S R) as [O C].
  apply (insert_runs w h d p S O Hp); [|exact L].
  destruct (add_point_ok (d_pmap d) P p (co_pm _ _ C) (in_image_hashable _ _ _ S Hp) Hm) as (pm & E & _). eauto.
Qed.
Print Assumptions C43_no_panic.

(** C41: NumPoints is the number of points inserted and not removed, with repetitions. *)
Theorem C41_num_points : forall w h P d, good_size w h -> reach w h P d -> num_points d = Z.of_nat (length P).
Proof. intros w h P d S R. apply good_size_ok in S. exact (co_num _ _ (proj2 (reach_ok w h P d S R))). Qed.
Print Assumptions C41_num_points.

(** A history with removals: three triangles are visible in the end and six slots are free. *)
Example C42_case : match run_ops 100 100 (map MAdd sample ++ map MRemove [Pt 50 50; Pt 80 20; Pt 80 20; Pt 50 20]) with
  | None => None | Some (d, P) => Some (length (d_tris d), length (d_free d), length (iter_triangles d), num_points d, P) end
  = Some (17%nat, 6%nat, 3%nat, 5, [Pt 0 57; Pt 100 0; Pt 20 80; Pt 80 80; Pt 20 20]).
Proof. vm_compute. reflexivity. Qed.
Example reach_case : exists d, reach 100 100 [Pt 0 57; Pt 100 0; Pt 20 80; Pt 80 80; Pt 20 20] d.
Proof.
  pose proof C42_case as H. destruct (run_ops 100 100 _) as [[d P]|] eqn:E; [|discriminate H]. exists d. apply run_ops_reach in E.
  assert (EP : P = [Pt 0 57; Pt 100 0; Pt 20 80; Pt 80 80; Pt 20 20]) by congruence. rewrite <- EP. exact E.
Qed.
