(** Insertion sort is one of the sorts the theorems on Voronoi diagrams allow. *)
From Coq Require Import ZArith List Bool Arith Lia Permutation.
From Verif Require Import GoNum M_Norm M_Slice M_Geom M_Delaunay M_Voronoi S_Voronoi.
Import ListNotations.

Section Sort.
Context {A : Type} (less : A -> A -> option bool).
Lemma insert_back_perm x acc r : insert_back less x acc = Some r -> Permutation (x :: acc) r.
Proof.
  revert r. induction acc as [|y t IH]; intros r; cbn [insert_back]; [intros [= <-]; reflexivity|].
  destruct (less x y) as [[|]|]; [|intros [= <-]; reflexivity|discriminate].
  destruct (insert_back less x t) as [r'|] eqn:E; [|discriminate]. intros [= <-]. rewrite perm_swap. constructor. apply IH. reflexivity.
Qed.
Lemma insert_back_none x acc : insert_back less x acc = None -> exists y, In y acc /\ less x y = None.
Proof.
  induction acc as [|y t IH]; cbn [insert_back]; [discriminate|].
  destruct (less x y) as [[|]|] eqn:E; [|discriminate|intros _; exists y; split; [left; reflexivity|exact E]].
  destruct (insert_back less x t) as [r'|]; [discriminate|]. intros _. destruct (IH eq_refl) as (z & I & K). exists z. split; [right; exact I|exact K].
Qed.
Lemma slice_fold rest : forall acc done, Permutation done acc ->
  match foldM (fun acc x => insert_back less x acc) rest acc with
  | Some r => Permutation (done ++ rest) r
  | None => exists i j x y, i <> j /\ nth_error (done ++ rest) i = Some x /\ nth_error (done ++ rest) j = Some y /\ less x y = None
  end.
Proof.
  induction rest as [|x rest IH]; intros acc done P; cbn [foldM]; [rewrite app_nil_r; exact P|].
  destruct (insert_back less x acc) as [acc'|] eqn:E.
  - specialize (IH acc' (done ++ [x])). rewrite <- !app_assoc in IH. cbn [app] in IH. apply IH.
    apply insert_back_perm in E. rewrite <- E, <- P. symmetry. apply Permutation_cons_append.
  - destruct (insert_back_none _ _ E) as (y & I & K). apply (Permutation_in _ (Permutation_sym P)) in I. apply In_nth_error in I as (j & J).
    assert (j < length done)%nat by (apply nth_error_Some; congruence).
    exists (length done), j, x, y. split; [lia|]. split; [rewrite nth_error_app2, Nat.sub_diag by lia; reflexivity|]. split; [rewrite nth_error_app1 by lia; exact J|exact K].
Qed.
End Sort.
Theorem slice_sort_ok : sorter_ok slice_sort.
Proof.
  constructor.
  - intros less l l'. unfold slice_sort. pose proof (slice_fold less l [] [] (perm_nil _)) as H. destruct (foldM _ l []) as [r|]; [|discriminate].
    cbn [option_map]. intros [= <-]. cbn [app] in H. rewrite H. apply Permutation_rev.
  - intros less l. unfold slice_sort. pose proof (slice_fold less l [] [] (perm_nil _)) as H. destruct (foldM _ l []) as [r|]; [discriminate|]. intros _. exact H.
  - reflexivity.
Qed.
