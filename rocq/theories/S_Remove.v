(** Specification of sorting with a comparison that may panic. *)
From Coq Require Import List Permutation.
Import ListNotations.

(** [less] is a strict total order on the elements of [l]; nothing is required of the
    comparison of an element with itself. *)
Record orders {A} (less : A -> A -> option bool) (l : list A) : Prop := {
  o_total : forall x y, In x l -> In y l -> x <> y ->
    (less x y = Some true /\ less y x = Some false) \/ (less x y = Some false /\ less y x = Some true);
  o_trans : forall x y z, In x l -> In y l -> In z l -> less x y = Some true -> less y z = Some true -> less x z = Some true }.

(** [sort] sorts: it does not panic on a list of different elements that [less]
    orders, and returns them in ascending order. *)
Definition sorts {A} (less : A -> A -> option bool) (sort : list A -> option (list A)) : Prop :=
  forall l, NoDup l -> orders less l ->
    exists l', sort l = Some l' /\ Permutation l l' /\
      forall l1 x l2 y l3, l' = l1 ++ x :: l2 ++ y :: l3 -> less x y = Some true.
