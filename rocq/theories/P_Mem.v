(** C86: on Go's slices, with arrays that append and Set reuse and scratch slices that every call
    uses again, a triangulation behaves as the value of M_Delaunay, and triangulations that live
    side by side do not disturb each other. *)
From Coq Require Import ZArith List Bool Lia Arith Permutation.
From Verif Require Import GoNum M_Norm M_Slice M_Geom M_Image M_Raster M_Delaunay S_Delaunay S_Remove M_Fitness M_Heap M_Cells M_Mem S_Mem L_Cells L_Reach L_Mem P_Delaunay P_Remove.
Import ListNotations.
Local Open Scope nat_scope.

(** C86: a program over triangulations in memory ends (or panics) as the program over values, and
    every triangulation shows the value it should have, however append grows its arrays. *)
Theorem C86_refines : forall grow sort ops, keeps_length sort -> Forall two_different ops ->
  option_map views (x_run grow sort ops no_pool) = l_run sort ops [].
Proof. intros grow sort ops KL F. exact (proj1 (x_run_ok grow sort ops no_pool KL F no_pool_ok)). Qed.
Print Assumptions C86_refines.

(** C86: what append does with capacities cannot be seen. *)
Theorem C86_growth : forall grow1 grow2 sort ops, keeps_length sort -> Forall two_different ops ->
  option_map views (x_run grow1 sort ops no_pool) = option_map views (x_run grow2 sort ops no_pool).
Proof. intros grow1 grow2 sort ops KL F. rewrite !C86_refines by assumption. reflexivity. Qed.
Print Assumptions C86_growth.

(** C86: nor what earlier calls left in the scratch slices, beyond the lengths of the slices, and in
    arrays no longer used: if two programs end with triangulations that show the same, then so do
    all their continuations. *)
Theorem C86_scratch : forall grow1 grow2 sort ops1 ops2 more s1 s2, keeps_length sort -> Forall two_different ops1 -> Forall two_different ops2 -> Forall two_different more ->
  x_run grow1 sort ops1 no_pool = Some s1 -> x_run grow2 sort ops2 no_pool = Some s2 -> views s1 = views s2 ->
  option_map views (x_run grow1 sort more s1) = option_map views (x_run grow2 sort more s2).
Proof.
  intros grow1 grow2 sort ops1 ops2 more s1 s2 KL F1 F2 F3 E1 E2 EQ. pose proof (proj2 (x_run_ok grow1 sort ops1 no_pool KL F1 no_pool_ok) s1 E1) as O1. pose proof (proj2 (x_run_ok grow2 sort ops2 no_pool KL F2 no_pool_ok) s2 E2) as O2.
  rewrite (proj1 (x_run_ok grow1 sort more s1 KL F3 O1)), (proj1 (x_run_ok grow2 sort more s2 KL F3 O2)), EQ. reflexivity.
Qed.
Print Assumptions C86_scratch.

(** A triangulation among others, as a value. *)
Local Opaque new_delaunay insert remove d_set.
Lemma set_nth_other {A} (l : list A) : forall j k a, nth_error (set_nth j a l) k = if j =? k then option_map (fun _ => a) (nth_error l k) else nth_error l k.
Proof. induction l as [|x l IH]; intros [|j] [|k] a; cbn; try reflexivity; [destruct (j =? k); reflexivity|apply IH]. Qed.
Lemma own_step sort k op vs vs' d : not_set k op -> l_step sort vs op = Some vs' -> nth_error vs k = Some d ->
  exists d', nth_error vs' k = Some d' /\ foldM (apply_op sort) (only k op) d = Some d'.
Proof.
  intros NS E N. destruct op as [w h|j p|j p|j o]; cbn [l_step only not_set] in *.
  - destruct (new_delaunay w h) as [e|]; [|discriminate]. injection E as <-. exists d. split; [|reflexivity]. rewrite nth_error_app1; [exact N|]. apply nth_error_Some. rewrite N. discriminate.
  - destruct (nth_error vs j) as [e|] eqn:Ej; [|discriminate]. destruct (insert e p) as [e'|] eqn:I; [|discriminate]. injection E as <-. rewrite set_nth_other. destruct (Nat.eqb_spec j k) as [->|n]; [|exists d; split; [exact N|reflexivity]].
    rewrite N. cbn [option_map foldM apply_op]. rewrite N in Ej. injection Ej as ->. rewrite I. exists e'. split; reflexivity.
  - destruct (nth_error vs j) as [e|] eqn:Ej; [|discriminate]. destruct (remove (sort p) e p) as [e'|] eqn:I; [|discriminate]. injection E as <-. rewrite set_nth_other. destruct (Nat.eqb_spec j k) as [->|n]; [|exists d; split; [exact N|reflexivity]].
    rewrite N. cbn [option_map foldM apply_op]. rewrite N in Ej. injection Ej as ->. rewrite I. exists e'. split; reflexivity.
  - destruct (nth_error vs j) as [e|]; [|discriminate]. destruct (nth_error vs o) as [f|]; [|discriminate]. destruct (d_set e f) as [e'|]; [|discriminate]. injection E as <-. rewrite set_nth_other. destruct (Nat.eqb_spec j k) as [e0|n]; [contradiction|]. exists d. split; [exact N|reflexivity].
Qed.
Lemma foldM_app {A S} (f : S -> A -> option S) l1 l2 s : foldM f (l1 ++ l2) s = match foldM f l1 s with None => None | Some s' => foldM f l2 s' end.
Proof. revert s. induction l1 as [|a l1 IH]; intros s; cbn; [reflexivity|]. destruct (f s a); [apply IH|reflexivity]. Qed.
Lemma own_run sort k : forall ops vs vs' d, Forall (not_set k) ops -> l_run sort ops vs = Some vs' -> nth_error vs k = Some d ->
  exists d', nth_error vs' k = Some d' /\ foldM (apply_op sort) (flat_map (only k) ops) d = Some d'.
Proof.
  induction ops as [|op ops IH]; intros vs vs' d F E N; unfold l_run in E; cbn [foldM flat_map] in *.
  - injection E as <-. exists d. split; [exact N|reflexivity].
  - destruct (l_step sort vs op) as [vs1|] eqn:E1; [|discriminate]. inversion F as [|? ? F1 F2]; subst. destruct (own_step sort k op vs vs1 d F1 E1 N) as (d1 & N1 & D1). destruct (IH vs1 vs' d1 F2 E N1) as (d2 & N2 & D2).
    exists d2. split; [exact N2|]. rewrite foldM_app, D1. exact D2.
Qed.

(** C86: a triangulation changes by the calls of Insert and Remove on itself only, whatever is done
    in between with the other ones. *)
Theorem C86_apart : forall grow sort ops more s s' k d, keeps_length sort -> Forall two_different ops -> Forall two_different more -> Forall (not_set k) more ->
  x_run grow sort ops no_pool = Some s -> x_run grow sort more s = Some s' -> nth_error (views s) k = Some d ->
  exists d', nth_error (views s') k = Some d' /\ foldM (apply_op sort) (flat_map (only k) more) d = Some d'.
Proof.
  intros grow sort ops more s s' k d KL F1 F2 NS E1 E2 N. pose proof (proj2 (x_run_ok grow sort ops no_pool KL F1 no_pool_ok) s E1) as O. pose proof (proj1 (x_run_ok grow sort more s KL F2 O)) as R. rewrite E2 in R. cbn [option_map] in R.
  exact (own_run sort k more _ _ d NS (eq_sym R) N).
Qed.
Print Assumptions C86_apart.

(** C86: so a triangulation made in the middle of a program and then used for Insert and Remove
    shows the state that all theorems about histories speak of. *)
Theorem C86_history : forall grow sort ops more w h s s', keeps_length sort -> Forall two_different ops -> Forall two_different more -> Forall (not_set (length (w_all s))) more ->
  x_run grow sort ops no_pool = Some s -> x_run grow sort (DNew w h :: more) s = Some s' ->
  exists d, nth_error (views s') (length (w_all s)) = Some d /\ history sort w h (flat_map (only (length (w_all s))) more) = Some d.
Proof.
  intros grow sort ops more w h s s' KL F1 F2 NS E1 E2. pose proof (proj2 (x_run_ok grow sort ops no_pool KL F1 no_pool_ok) s E1) as O.
  assert (F3 : Forall two_different (DNew w h :: more)) by (constructor; [exact I|exact F2]). pose proof (proj1 (x_run_ok grow sort _ s KL F3 O)) as R. rewrite E2 in R. cbn [option_map] in R. symmetry in R. unfold l_run in R. cbn [foldM l_step] in R. unfold history.
  destruct (new_delaunay w h) as [d|]; cbn [option_map] in R; [|discriminate]. apply (own_run sort (length (w_all s)) more _ _ d NS R).
  rewrite nth_error_app2; unfold views; rewrite map_length; [rewrite Nat.sub_diag; reflexivity|lia].
Qed.
Print Assumptions C86_history.

(** Two triangulations: the first is filled, the second made a copy of it by Set, then both go
    their ways.  Arrays with no and with five elements to spare: different memories, same
    triangulations; what is left of the scratch slices is not empty. *)
Lemma insertion_keeps : keeps_length insertion_sort.
Proof. intros p l l' E. apply insertion_sort_perm in E. apply Permutation_length in E. symmetry. exact E. Qed.
Definition two_ops : list dop :=
  DNew 100 100 :: map (DInsert 0) sample ++ [DNew 100 100; DInsert 1 (Pt 7 9); DSet 1 0; DRemove 0 (Pt 50 50); DRemove 1 (Pt 80 20); DInsert 1 (Pt 33 61); DRemove 0 (Pt 50 20)].
Example two_ops_different : Forall two_different two_ops.
Proof. repeat constructor. cbn. lia. Qed.
Definition seen (s : pool) : list (nat * nat * nat) := map (fun d => (length (used d), length (iter_triangles d), length (d_free d))) (views s).
Definition arrays (s : pool) : nat * nat * nat := (length (m_t (w_mem s)), length (concat (m_i (w_mem s))), length (concat (m_e (w_mem s)))).
Definition tight (A : Type) (_ : list (list A)) : nat := 0.
Definition spare (A : Type) (_ : list (list A)) : nat := 5.
Example C86_case_tight : option_map (fun s => (seen s, arrays s)) (x_run tight insertion_sort two_ops no_pool) = Some ([(13, 5, 4); (19, 11, 0)], (25, 4086, 43)).
Proof. vm_compute. reflexivity. Qed.
Example C86_case_spare : option_map (fun s => (seen s, arrays s)) (x_run spare insertion_sort two_ops no_pool) = Some ([(13, 5, 4); (19, 11, 0)], (8, 2461, 24)).
Proof. vm_compute. reflexivity. Qed.

(** C86, Set of a triangulation to itself: indices handed out long ago count as free again, so the
    next Insert overwrites triangles in use. *)
Definition self_ops : list dop := DNew 100 100 :: map (DInsert 0) sample.
Definition self_first (s : pool) : pool := Pool (w_mem s) (match w_all s with x :: l => x_set_self (w_mem s) x :: l | [] => [] end).
Lemma self_computed : option_map (fun s => (length (w_all s), option_map seen (x_run tight insertion_sort [DInsert 0 (Pt 33 61)] s), option_map seen (x_run tight insertion_sort [DInsert 0 (Pt 33 61)] (self_first s))))
  (x_run tight insertion_sort self_ops no_pool) = Some (1, Some [(19, 11, 0)], Some [(17, 10, 3)]).
Proof. vm_compute. reflexivity. Qed.
Lemma self_witness grow sort ops more (r : option pool) a b : x_run grow sort ops no_pool = r ->
  option_map (fun s => (length (w_all s), option_map seen (x_run grow sort more s), option_map seen (x_run grow sort more (self_first s)))) r = Some (1, Some a, Some b) ->
  exists s x s1 s2, x_run grow sort ops no_pool = Some s /\ w_all s = [x] /\ x_run grow sort more s = Some s1 /\ x_run grow sort more (Pool (w_mem s) [x_set_self (w_mem s) x]) = Some s2 /\ seen s1 = a /\ seen s2 = b.
Proof.
  intros E. destruct r as [s|]; cbn [option_map]; [|discriminate]. intros K. assert (L : length (w_all s) = 1) by congruence. destruct (w_all s) as [|x [|y l]] eqn:W; try discriminate L.
  unfold self_first in K. rewrite W in K. destruct (x_run grow sort more s) as [s1|] eqn:E1; [|discriminate K]. destruct (x_run grow sort more (Pool (w_mem s) [x_set_self (w_mem s) x])) as [s2|] eqn:E2; [|discriminate K]. cbn [option_map] in K.
  exists s, x, s1, s2. split; [exact E|]. split; [exact W|]. split; [exact E1|]. split; [exact E2|]. split; congruence.
Qed.
Theorem C86_self_refuted : exists ops p s x s1 s2, Forall two_different ops /\ x_run tight insertion_sort ops no_pool = Some s /\ w_all s = [x] /\
  x_run tight insertion_sort [DInsert 0 p] s = Some s1 /\ x_run tight insertion_sort [DInsert 0 p] (Pool (w_mem s) [x_set_self (w_mem s) x]) = Some s2 /\
  seen s1 = [(19, 11, 0)] /\ seen s2 = [(17, 10, 3)].
Proof.
  exists self_ops, (Pt 33 61). destruct (self_witness tight insertion_sort self_ops [DInsert 0 (Pt 33 61)] _ _ _ eq_refl self_computed) as (s & x & s1 & s2 & K). exists s, x, s1, s2.
  split; [|exact K]. repeat constructor.
Qed.
Print Assumptions C86_self_refuted.
