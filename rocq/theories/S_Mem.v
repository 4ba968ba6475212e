(** What the programs over several triangulations mean if every triangulation is a value of
    its own (M_Delaunay), and how a triangulation in memory shows such a value. *)
From Coq Require Import ZArith List Bool Arith.
From Verif Require Import GoNum M_Norm M_Slice M_Geom M_Image M_Raster M_Delaunay S_Delaunay M_Fitness M_Heap M_Cells M_Mem.
Import ListNotations.
Local Open Scope nat_scope.

(** The value of a triangulation: the elements of its slices up to their length.  The free
    indices are a stack, last one first.  The scratch slices are not part of it. *)
Definition view (m : mem) (x : xd) : delaunay :=
  let g := x_shape x in
  D (elems (m_t m) (x_tris x)) (Grid (map (map (elems (m_i m))) (x_cells x)) (g_cols g) (g_rows g) (g_rowpx g) (g_colpx g))
    (map (elems (m_b m)) (x_pm x)) (rev (elems (m_i m) (x_free x))) (x_super x) (x_num x) (x_unique x).
Definition views (s : pool) : list delaunay := map (view (w_mem s)) (w_all s).

(** An operation on values: only the triangulation it is called on changes. *)
Definition l_step (sort : point -> list point -> option (list point)) (vs : list delaunay) (op : dop) : option (list delaunay) :=
  match op with
  | DNew w h => option_map (fun d => vs ++ [d]) (new_delaunay w h)
  | DInsert k p => match nth_error vs k with None => None | Some d => option_map (fun d' => set_nth k d' vs) (insert d p) end
  | DRemove k p => match nth_error vs k with None => None | Some d => option_map (fun d' => set_nth k d' vs) (remove (sort p) d p) end
  | DSet k o => match nth_error vs k, nth_error vs o with Some d, Some e => option_map (fun d' => set_nth k d' vs) (d_set d e) | _, _ => None end
  end.
Definition l_run (sort : point -> list point -> option (list point)) (ops : list dop) (vs : list delaunay) : option (list delaunay) := foldM (l_step sort) ops vs.

(** sort.Slice rearranges the elements in place. *)
Definition keeps_length (sort : point -> list point -> option (list point)) : Prop := forall p l l', sort p l = Some l' -> length l' = length l.
(** No Set of a triangulation to itself (see C49_self_refuted). *)
Definition two_different (op : dop) : Prop := match op with DSet k o => k <> o | _ => True end.
(** The calls of Insert and Remove on triangulation number k, and: it is not the target of Set. *)
Definition only (k : nat) (op : dop) : list mop :=
  match op with
  | DInsert j p => if j =? k then [MAdd p] else []
  | DRemove j p => if j =? k then [MRemove p] else []
  | _ => []
  end.
Definition not_set (k : nat) (op : dop) : Prop := match op with DSet j _ => j <> k | _ => True end.
