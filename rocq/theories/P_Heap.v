(** C49: Delaunay.Set makes an independent copy.  C41: it does not transfer NumPoints. *)
From Coq Require Import ZArith List Bool Arith Lia Permutation.
From Verif Require Import GoNum M_Norm M_Slice M_Geom S_Geom M_Image M_Raster M_Delaunay S_Delaunay M_Fitness S_Fitness L_PMap L_Tri L_Reach M_Heap S_Heap L_Heap.
Import ListNotations.
Local Open Scope nat_scope.

(** C49: whatever happens to any number of triangulations, and however large the arrays that
    append allocates are, the slices behave as if every triangulation owned its lists:
    the same operations panic, and every triangulation holds what the operations on it
    say.  [Set] copies the lists. *)
Theorem C49_refines : forall {A} (zero : A) (ops : list (hop A)), Forall two_objects ops -> option_map show (h_run zero no_objects ops) = v_run [] ops.
Proof. intros A zero ops T. exact (proj1 (run_refines zero ops no_objects own_none T)). Qed.
Print Assumptions C49_refines.

(** C49: after d.Set(o), d holds what o holds; o and every other triangulation is unchanged. *)
Theorem C49_set : forall {A} (zero : A) ops w d o w' v u, Forall two_objects ops -> h_run zero no_objects ops = Some w -> d <> o -> h_set zero w d o = Some w' ->
  nth_error (show w) d = Some v -> nth_error (show w) o = Some u -> length v = length u ->
  nth_error (show w') d = Some u /\ (forall x, x <> d -> nth_error (show w') x = nth_error (show w) x).
Proof.
  intros A zero ops w d o w' v u T E N Es Ev Eu L. destruct (run_refines zero ops no_objects own_none T) as [_ O]. specialize (O _ E).
  destruct (h_set_refines zero w d o O N) as [R _]. rewrite Es in R. cbn [v_exec option_map] in R. unfold value in R. rewrite Ev, Eu, L, Nat.leb_refl, firstn_all in R. injection R as R. rewrite R. split.
  - rewrite nth_error_set_nth, Nat.eqb_refl, (proj2 (Nat.ltb_lt _ _)); [reflexivity|]. apply nth_error_Some. congruence.
  - intros x Nx. rewrite nth_error_set_nth. destruct (Nat.eqb_spec d x); [congruence|reflexivity].
Qed.
Print Assumptions C49_set.

(** C49: Set between triangulations with as many slices succeeds. *)
Theorem C49_set_succeeds : forall {A} (zero : A) ops w d o v u, Forall two_objects ops -> h_run zero no_objects ops = Some w -> d <> o ->
  nth_error (show w) d = Some v -> nth_error (show w) o = Some u -> length v = length u -> exists w', h_set zero w d o = Some w'.
Proof.
  intros A zero ops w d o v u T E N Ev Eu L. destruct (run_refines zero ops no_objects own_none T) as [_ O]. specialize (O _ E).
  destruct (h_set_refines zero w d o O N) as [R _]. cbn [v_exec] in R. unfold value in R. rewrite Ev, Eu, L, Nat.leb_refl in R. destruct (h_set zero w d o) as [w'|]; [eauto|discriminate].
Qed.
Print Assumptions C49_set_succeeds.

(** C49: later operations on other triangulations, and Sets of others to it, do not change a triangulation. *)
Theorem C49_independent : forall {A} (zero : A) ops w later w' x, Forall two_objects (ops ++ later) -> h_run zero no_objects ops = Some w -> h_run zero w later = Some w' ->
  x < length (show w) -> Forall (fun op => target op <> Some x) later -> nth_error (show w') x = nth_error (show w) x.
Proof.
  intros A zero ops w later w' x T E. apply Forall_app in T as [T1 T2]. destruct (run_refines zero ops no_objects own_none T1) as [_ O]. specialize (O _ E). clear E T1 ops.
  revert w O. induction later as [|op later IH]; intros w O E Lx F; cbn in E; [congruence|]. inversion T2 as [|? ? To T3]; subst. inversion F as [|? ? Fo F']; subst.
  destruct (exec_refines zero w op O To) as [R O1]. destruct (h_exec zero w op) as [w1|]; [|discriminate]. cbn in R. unfold value in R.
  assert (Q : nth_error (show w1) x = nth_error (show w) x).
  { assert (Ch : forall o k f vs', o <> x -> change (show w) o k f = Some vs' -> nth_error vs' x = nth_error (show w) x).
    { intros o k f vs' No C. unfold change, value in C. destruct (nth_error (show w) o) as [v|]; [|discriminate]. destruct (nth_error v k) as [l|]; [|discriminate]. destruct (f l) as [l'|]; [|discriminate].
      cbn in C. inversion C; clear C; subst vs'. rewrite nth_error_set_nth. destruct (Nat.eqb_spec o x); [contradiction|reflexivity]. }
    destruct op as [m|o k i v|o k n|o k v e|d o]; cbn [v_exec target] in *; unfold value in R; try (symmetry in R; eapply Ch; [|exact R]; congruence).
    - injection R as R0. rewrite R0. rewrite nth_error_app1 by exact Lx. reflexivity.
    - destruct (nth_error (show w) d) as [v|]; [|discriminate]. destruct (nth_error (show w) o) as [u|]; [|discriminate]. destruct (length v <=? length u); [|discriminate].
      injection R as R0. rewrite R0. rewrite nth_error_set_nth. destruct (Nat.eqb_spec d x); [congruence|reflexivity]. }
  rewrite <- Q. apply IH; auto. apply nth_error_Some. rewrite Q. apply nth_error_Some. exact Lx.
Qed.
Print Assumptions C49_independent.

(** A case: object 0 has an array with room to spare, 1 gets a copy, both go on separately;
    object 2 is then set to a shorter one. *)
Example C49_case : option_map show (h_run 0 no_objects [HNew 2; HNew 2; HNew 2; HAppend 0 0 7 3; HAppend 0 0 8 0; HAppend 0 1 9 0; HSet 1 0; HAppend 1 0 5 1; HWrite 0 0 0 1; HAppend 0 0 6 0;
   HSet 2 1; HCut 2 0 1; HSet 1 2; HAppend 2 0 4 9])
  = Some [[[1; 8; 6]; [9]]; [[7]; [9]]; [[7; 4]; [9]]].
Proof. vm_compute. reflexivity. Qed.

(** Set of a triangulation to itself is not harmless: it shows what is left beyond the length. *)
Theorem C49_self_refuted : exists (ops : list (hop nat)) w w', Forall two_objects ops /\ h_run 0 no_objects ops = Some w /\ h_set 0 w 0 0 = Some w' /\
  show w = [[[1]]] /\ show w' = [[[1; 2]]].
Proof. eexists [HNew 1; HAppend 0 0 1 1; HAppend 0 0 2 0; HCut 0 0 1], _, _. split; [repeat constructor|]. split; [vm_compute; reflexivity|]. split; [vm_compute; reflexivity|]. split; reflexivity. Qed.
Print Assumptions C49_self_refuted.

(** The lists of a triangulation of the model. *)
Inductive cell := CTri (t : dtri) | CIdx (i : Z) | CEntry (e : pentry).
Definition lists_of (d : delaunay) : list (list cell) :=
  map CTri (d_tris d) :: map CIdx (rev (d_free d)) :: map (map CIdx) (concat (g_cells (d_grid d))) ++ map (map CEntry) (d_pmap d).

(** C49: in the model, Set of a triangulation to another one of the same image size makes all
    lists equal (so, by the theorems above, it is what the slices do), and every query then
    answers the same. *)
Theorem C49_triangulation : forall w h P Q d o, built w h P d -> built w h Q o ->
  exists d', d_set d o = Some d' /\ lists_of d' = lists_of o /\ iter_triangles d' = iter_triangles o /\ (forall p, has_point d' p = has_point o p) /\
    (forall p, copies_of (d_pmap d') p = copies_of (d_pmap o) p) /\ (forall p, get_closest_to d' p = get_closest_to o p).
Proof.
  intros w h P Q d o B1 B2. assert (Rd : alike d d) by (repeat split). assert (Ro : alike o o) by (repeat split).
  destruct (d_set_total _ _ _ _ _ _ _ _ B1 Rd B2 Ro) as [d' E]. exists d'. destruct (d_set_alike _ _ _ _ _ _ _ _ _ B1 Rd B2 Ro E) as (A1 & A2 & A3 & A4 & A5).
  split; [exact E|]. unfold lists_of, iter_triangles, touches_super, has_point, get_closest_to. rewrite A1, A2, A3, A4, A5. repeat split.
Qed.
Print Assumptions C49_triangulation.
(** C49: and it goes on answering the same after the same insertions and removals. *)
Theorem C49_goes_on : forall w h P Q d o d', built w h P d -> built w h Q o -> d_set d o = Some d' ->
  (forall p o1, insert o p = Some o1 -> exists d1, insert d' p = Some d1 /\ lists_of d1 = lists_of o1) /\
  (forall sort p o1, remove sort o p = Some o1 -> exists d1, remove sort d' p = Some d1 /\ lists_of d1 = lists_of o1).
Proof.
  intros w h P Q d o d' B1 B2 E. assert (Rd : alike d d) by (repeat split). assert (Ro : alike o o) by (repeat split).
  assert (A := d_set_alike _ _ _ _ _ _ _ _ _ B1 Rd B2 Ro E). assert (A' : alike o d') by (destruct A as (A1 & A2 & A3 & A4 & A5); repeat split; congruence).
  assert (Eq : forall a b, alike a b -> lists_of b = lists_of a) by (intros a b (C1 & C2 & C3 & C4 & C5); unfold lists_of; rewrite C1, C2, C3, C4; reflexivity).
  split.
  - intros p o1 I. destruct (insert_alike _ _ _ _ A' I) as (d1 & I1 & A1). eauto.
  - intros sort p o1 I. destruct (remove_alike _ _ _ _ _ A' I) as (d1 & I1 & A1). eauto.
Qed.
Print Assumptions C49_goes_on.

(** C41: over histories with Set too, NumPoints is the number of insertions into the object minus
    the number of removals from it: Set does not change it. *)
Inductive counted (w h : Z) : Z -> delaunay -> Prop :=
| counted_new d : new_delaunay w h = Some d -> counted w h 0 d
| counted_insert n d p d' : counted w h n d -> insert d p = Some d' -> counted w h (n + 1) d'
| counted_remove n d sort p d' : counted w h n d -> remove sort d p = Some d' -> counted w h (n - 1) d'
| counted_set n d o d' : counted w h n d -> d_set d o = Some d' -> counted w h n d'.
Lemma new_num w h d : new_delaunay w h = Some d -> d_num d = 0%Z.
Proof.
  unfold new_delaunay. destruct (new_grid 10 10 w h) as [g0|]; [|discriminate]. destruct (new_point_map_ok 100 eq_refl) as (pm & EP & L & _). rewrite EP.
  generalize (new_super_triangle w h). intros s. destruct (add_triangle [] g0 [] s) as [[[tris g'] free]|] eqn:EA; [|discriminate]. intros E. injection E as <-. reflexivity.
Qed.
Theorem C41_set : forall w h n d, counted w h n d -> num_points d = n.
Proof.
  assert (I : forall d p d', insert d p = Some d' -> d_num d' = (d_num d + 1)%Z).
  { intros d p d'. unfold insert. destruct (add_point _ _) as [[pm c]|]; [|discriminate].
    repeat match goal with |- context [match ?x with _ => _ end] => destruct x; try discriminate end; inversion 1; reflexivity. }
  assert (R : forall sort d p d', remove sort d p = Some d' -> d_num d' = (d_num d - 1)%Z).
  { intros sort d p d'. unfold remove. destruct (remove_point _ _) as [[pm c]|]; [|discriminate].
    repeat match goal with |- context [match ?x with _ => _ end] => destruct x; try discriminate end; inversion 1; reflexivity. }
  intros w h n d. unfold num_points. induction 1 as [d E|n d p d' _ IH E|n d sort p d' _ IH E|n d o d' _ IH E].
  - exact (new_num _ _ _ E).
  - rewrite (I _ _ _ E), IH. reflexivity.
  - rewrite (R _ _ _ _ E), IH. reflexivity.
  - unfold d_set in E. destruct (grid_set _ _) as [g|]; [|discriminate]. destruct (table_set _ _) as [pm|]; [|discriminate]. inversion E. exact IH.
Qed.
Print Assumptions C41_set.

(** So after a Set it is not the number of points held: a triangulation set to one with three points says 0. *)
Definition three_inserts : bool :=
  match new_delaunay 100 100 with Some d => match insert d (Pt 1 2) with Some d1 => match insert d1 (Pt 50 60) with Some d2 =>
  match insert d2 (Pt 1 2) with Some _ => true | None => false end | None => false end | None => false end | None => false end.
Lemma C41_set_check : three_inserts = true.
Proof. vm_compute. reflexivity. Qed.
Theorem C41_set_refuted : exists d o d', built 100 100 [] d /\ built 100 100 [Pt 1 2; Pt 50 60; Pt 1 2] o /\ d_set d o = Some d' /\
  lists_of d' = lists_of o /\ num_points d' = 0%Z /\ num_points o = 3%Z.
Proof.
  assert (In1 : in_image 100 100 (Pt 1 2)) by (unfold in_image; cbn; lia). assert (In2 : in_image 100 100 (Pt 50 60)) by (unfold in_image; cbn; lia).
  assert (T := C41_set_check).
  unfold three_inserts in T.
  destruct (new_delaunay 100 100) as [d|] eqn:E; [|discriminate]. assert (B0 := built_new 100 100 d E).
  destruct (insert d (Pt 1 2)) as [d1|] eqn:E1; [|discriminate]. destruct (insert d1 (Pt 50 60)) as [d2|] eqn:E2; [|discriminate]. destruct (insert d2 (Pt 1 2)) as [o|] eqn:E3; [|discriminate]. clear T.
  assert (B1 := built_insert _ _ _ _ _ _ B0 In1 ltac:(reflexivity) E1). assert (B2 := built_insert _ _ _ _ _ _ B1 In2 ltac:(reflexivity) E2). assert (B3 := built_insert _ _ _ _ _ _ B2 In1 ltac:(reflexivity) E3).
  destruct (C49_triangulation _ _ _ _ _ _ B0 B3) as (d' & Es & L & _). exists d, o, d'. repeat (split; [assumption|]). split.
  - apply (C41_set 100 100). eapply counted_set; [|exact Es]. apply counted_new, E.
  - apply (C41_set 100 100). change 3%Z with (0 + 1 + 1 + 1)%Z. eapply counted_insert; [|exact E3]. eapply counted_insert; [|exact E2]. eapply counted_insert; [|exact E1]. apply counted_new, E.
Qed.
Print Assumptions C41_set_refuted.
