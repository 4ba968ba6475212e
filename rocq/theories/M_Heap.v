(** Delaunay.Set on Go's slices.  The state of a triangulation that Set copies consists of
    slices: triangles and freeTriangles (delaunay.go:11-30), one slice of indices for each
    cell of the grid (grid.go:10) and one slice of entries for each bucket of the point map
    (pointmap.go:5).  Here a triangulation is the list of these slices, over a heap of
    arrays.  Every such slice starts at the beginning of its array (the package only
    reslices with [:n]), so a header is an array and a length, and the capacity is the length
    of the array.  Simplified: a nil slice is an empty array of its own; the elements of all
    slices are of one type; superTriangle, a value, is left out.  The outer slices of the
    grid and the point map are made once and never resized (grid.go:23-26,
    pointmap.go:11). *)
From Coq Require Import List Arith Bool.
From Verif Require Import M_Slice.
Import ListNotations.

Section World.
Context {A : Type} (zero : A).
Record header := Hd { h_arr : nat; h_len : nat }.
Record world := World { w_heap : list (list A); w_objs : list (list header) }.

Definition slot (w : world) (o k : nat) : option header := match nth_error (w_objs w) o with None => None | Some f => nth_error f k end.
Definition set_slot (w : world) (o k : nat) (s : header) : world :=
  World (w_heap w) (set_nth o (set_nth k s (nth o (w_objs w) [])) (w_objs w)).
Definition array (w : world) (s : header) : list A := nth (h_arr s) (w_heap w) [].
Definition set_array (w : world) (s : header) (l : list A) : world := World (set_nth (h_arr s) l (w_heap w)) (w_objs w).

(** f[i] = v *)
Definition h_write (w : world) (o k i : nat) (v : A) : option world :=
  match slot w o k with
  | None => None
  | Some s => if i <? h_len s then Some (set_array w s (set_nth i v (array w s))) else None
  end.
(** f = f[:n], used with n up to the length *)
Definition h_cut (w : world) (o k n : nat) : option world :=
  match slot w o k with
  | None => None
  | Some s => if n <=? h_len s then Some (set_slot w o k (Hd (h_arr s) n)) else None
  end.
(** f = append(f, v); a new array gets [extra] free elements, chosen by the runtime. *)
Definition h_append (w : world) (o k : nat) (v : A) (extra : nat) : option world :=
  match slot w o k with
  | None => None
  | Some s =>
      if h_len s <? length (array w s) then Some (set_slot (set_array w s (set_nth (h_len s) v (array w s))) o k (Hd (h_arr s) (S (h_len s))))
      else Some (set_slot (World (w_heap w ++ [firstn (h_len s) (array w s) ++ [v] ++ repeat zero extra]) (w_objs w)) o k (Hd (length (w_heap w)) (S (h_len s))))
  end.
(** f = make([]T, n) *)
Definition h_make (w : world) (o k n : nat) : option world :=
  match slot w o k with
  | None => None
  | Some s => Some (set_slot (World (w_heap w ++ [repeat zero n]) (w_objs w)) o k (Hd (length (w_heap w)) n))
  end.
(** copy(d.f, other.f) *)
Definition h_copy (w : world) (d o k : nat) : option world :=
  match slot w d k, slot w o k with
  | Some s, Some t => Some (set_array w s (splice 0 (firstn (Nat.min (h_len s) (h_len t)) (array w t)) (array w s)))
  | _, _ => None
  end.

(** Set for one slice (delaunay.go:281-289, 291-298; grid.go:259-266; pointmap.go:87-94). *)
Definition set_one (d o : nat) (w : world) (k : nat) : option world :=
  match slot w d k with
  | None => None
  | Some s =>
      let w1 := set_slot w d k (Hd (h_arr s) (length (array w s))) in
      match slot w1 o k with
      | None => None
      | Some t =>
          let w2 :=
            if h_len t <? length (array w s) then Some (set_slot w1 d k (Hd (h_arr s) (h_len t)))
            else if length (array w s) <? h_len t then h_make w1 d k (h_len t)
            else Some w1 in
          match w2 with None => None | Some w2 => h_copy w2 d o k end
      end
  end.
(** Delaunay.Set (delaunay.go:280-304), with CircumcircleGrid.Set (grid.go:256-269) and
    pointMap.Set (pointmap.go:85-96). *)
Definition h_set (w : world) (d o : nat) : option world :=
  match nth_error (w_objs w) d, nth_error (w_objs w) o with
  | Some f, Some _ => fold_left (fun ow k => match ow with None => None | Some w => set_one d o w k end) (seq 0 (length f)) (Some w)
  | _, _ => None
  end.
(** A new object with m empty slices (NewDelaunay, delaunay.go:33-46). *)
Definition h_new (w : world) (m : nat) : world :=
  World (w_heap w ++ repeat [] m) (w_objs w ++ [map (fun i => Hd (length (w_heap w) + i) 0) (seq 0 m)]).

(** Whatever the methods do to these slices is a sequence of these operations. *)
Inductive hop := HNew (m : nat) | HWrite (o k i : nat) (v : A) | HCut (o k n : nat) | HAppend (o k : nat) (v : A) (extra : nat) | HSet (d o : nat).
Definition h_exec (w : world) (op : hop) : option world :=
  match op with
  | HNew m => Some (h_new w m)
  | HWrite o k i v => h_write w o k i v
  | HCut o k n => h_cut w o k n
  | HAppend o k v e => h_append w o k v e
  | HSet d o => h_set w d o
  end.
Fixpoint h_run (w : world) (ops : list hop) : option world :=
  match ops with [] => Some w | op :: ops' => match h_exec w op with None => None | Some w' => h_run w' ops' end end.
(** The elements of all slices. *)
Definition show (w : world) : list (list (list A)) := map (map (fun s => firstn (h_len s) (array w s))) (w_objs w).
Definition no_objects : world := World [] [].
End World.
Arguments world : clear implicits.
Arguments hop : clear implicits.
