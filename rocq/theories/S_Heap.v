(** What operations on slices mean for independent values: each object is a list of lists. *)
From Coq Require Import List Arith Bool.
From Verif Require Import M_Slice M_Heap.
Import ListNotations.

Section Values.
Context {A : Type}.
Definition value := list (list A).
(** Change one list of one object. *)
Definition change (vs : list value) (o k : nat) (f : list A -> option (list A)) : option (list value) :=
  match nth_error vs o with
  | None => None
  | Some v => match nth_error v k with
              | None => None
              | Some l => option_map (fun l' => set_nth o (set_nth k l' v) vs) (f l)
              end
  end.
Definition v_exec (vs : list value) (op : hop A) : option (list value) :=
  match op with
  | HNew m => Some (vs ++ [repeat [] m])
  | HWrite o k i x => change vs o k (fun l => if i <? length l then Some (set_nth i x l) else None)
  | HCut o k n => change vs o k (fun l => if n <=? length l then Some (firstn n l) else None)
  | HAppend o k x _ => change vs o k (fun l => Some (l ++ [x]))
  | HSet d o =>
      match nth_error vs d, nth_error vs o with
      | Some v, Some u => if length v <=? length u then Some (set_nth d (firstn (length v) u) vs) else None
      | _, _ => None
      end
  end.
Fixpoint v_run (vs : list value) (ops : list (hop A)) : option (list value) :=
  match ops with [] => Some vs | op :: ops' => match v_exec vs op with None => None | Some vs' => v_run vs' ops' end end.
(** The object an operation is called on. *)
Definition target (op : hop A) : option nat :=
  match op with HNew _ => None | HWrite o _ _ _ | HCut o _ _ | HAppend o _ _ _ => Some o | HSet d _ => Some d end.
(** No Set of an object to itself. *)
Definition two_objects (op : hop A) : Prop := match op with HSet d o => d <> o | _ => True end.
End Values.
