(** Go slices over an explicit heap, and NormPointGroup.Set / Copy on them. *)
From Coq Require Import List Arith Lia Bool.
Import ListNotations.

(** A heap is a list of arrays; a slice header points into one of them.
    (Go language: slices; capacity is not needed here because nothing appends.) *)
Record slice := Sl { s_arr : nat; s_off : nat; s_len : nat }.

Section Heap.
Context {A : Type}.
Definition heap := list (list A).

Definition arr (h : heap) (a : nat) : list A := nth a h [].
Definition valid (h : heap) (s : slice) : Prop :=
  s_arr s < length h /\ s_off s + s_len s <= length (arr h (s_arr s)).

(** The elements a slice shows. *)
Definition read (h : heap) (s : slice) : list A := firstn (s_len s) (skipn (s_off s) (arr h (s_arr s))).

Fixpoint set_nth {B} (i : nat) (b : B) (l : list B) : list B :=
  match l, i with
  | [], _ => []
  | _ :: t, O => b :: t
  | x :: t, S j => x :: set_nth j b t
  end.

(** [s[i] = v] *)
Definition write (h : heap) (s : slice) (i : nat) (v : A) : heap :=
  if i <? s_len s then set_nth (s_arr s) (set_nth (s_off s + i) v (arr h (s_arr s))) h else h.

(** Replace the elements of an array from position [off] on by [vs]. *)
Definition splice (off : nat) (vs l : list A) : list A :=
  firstn off l ++ vs ++ skipn (off + length vs) l.

(** The builtin copy(dst, src) (Go spec: the source is read as if before any write). *)
Definition go_copy (h : heap) (dst src : slice) : heap :=
  let n := Nat.min (s_len dst) (s_len src) in
  let vs := firstn n (read h src) in
  set_nth (s_arr dst) (splice (s_off dst) vs (arr h (s_arr dst))) h.

(** make([]T, n) *)
Definition go_make (zero : A) (h : heap) (n : nat) : heap * slice :=
  (h ++ [repeat zero n], Sl (length h) 0 n).

(** NormPointGroup.Set (normgeom/normpoint.go:43-49); [None] is the panic. *)
Definition group_set (h : heap) (p other : slice) : option heap :=
  if s_len p =? s_len other then Some (go_copy h p other) else None.

(** NormPointGroup.Copy (normgeom/normpoint.go:52-57). *)
Definition group_copy (zero : A) (h : heap) (p : slice) : heap * slice :=
  let (h1, newGroup) := go_make zero h (s_len p) in
  (go_copy h1 newGroup p, newGroup).

(** A sequence of writes through arbitrary slices. *)
Definition writes (h : heap) (ws : list (slice * nat * A)) : heap :=
  fold_left (fun h w => write h (fst (fst w)) (snd (fst w)) (snd w)) ws h.
End Heap.
Arguments heap : clear implicits.

(** Two slices share no element. *)
Definition disjoint (s t : slice) : Prop :=
  s_arr s <> s_arr t \/ s_off s + s_len s <= s_off t \/ s_off t + s_len t <= s_off s.
