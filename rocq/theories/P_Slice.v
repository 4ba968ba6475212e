(** Property C02: NormPointGroup.Set and Copy. *)
From Coq Require Import List Arith.
From Verif Require Import M_Slice L_Slice.
Import ListNotations.

(** The element type is arbitrary (NormPoint in the code). *)
Theorem C02_set : forall (A : Type) (h : heap A) (p o : slice), valid h p -> valid h o ->
  (group_set h p o = None <-> s_len p <> s_len o) /\
  forall h', group_set h p o = Some h' ->
    read h' p = read h o /\
    (disjoint p o -> read h' o = read h o) /\
    (forall s, disjoint p s -> read h' s = read h s).
Proof. exact @group_set_spec. Qed.
Print Assumptions C02_set.
Example C02_set_case :
  option_map (fun h => (read h (Sl 0 0 2), read h (Sl 1 1 2))) (group_set [[1;2;3]; [4;5;6]] (Sl 0 0 2) (Sl 1 1 2))
  = Some ([5;6], [5;6]) /\ group_set [[1;2;3]; [4;5;6]] (Sl 0 0 2) (Sl 1 0 3) = None.
Proof. split; reflexivity. Qed.

Theorem C02_copy : forall (A : Type) (zero : A) (h : heap A) (p : slice), valid h p ->
  let h' := fst (group_copy zero h p) in let q := snd (group_copy zero h p) in
  valid h' q /\ read h' q = read h p /\
  (forall s, valid h s -> valid h' s /\ read h' s = read h s /\ disjoint s q) /\
  (forall ws, Forall (fun w => valid h (fst (fst w))) ws -> read (writes h' ws) q = read h' q) /\
  (forall ws s, Forall (fun w => fst (fst w) = q) ws -> valid h s -> read (writes h' ws) s = read h s).
Proof. exact @group_copy_spec. Qed.
Print Assumptions C02_copy.
Example C02_copy_case :
  let (h, q) := group_copy 0 [[1;2;3]] (Sl 0 1 2) in
  read (write h q 0 9) (Sl 0 0 3) = [1;2;3] /\ read (write h q 0 9) q = [9;3].
Proof. split; reflexivity. Qed.
