(** What C80 compares the slices with: diagrams that own their polygons as values, and what is
    meant by a slice that keeps its elements. *)
From Coq Require Import ZArith List Bool Arith.
From Verif Require Import GoNum M_Norm M_Slice M_Geom M_Delaunay M_Voronoi M_Polygons M_Heap M_Cells.
Import ListNotations.
Local Open Scope nat_scope.

(** The same calls on diagrams that are values (M_Voronoi, M_Polygons). *)
Definition cv_exec (srt : sorter) (hsrt : point -> list point -> option (list point)) (vs : list ivor) (o : cop) : option (list ivor) :=
  match o with
  | VNew w h => option_map (fun v => vs ++ [v]) (new_voronoi w h)
  | VInsert i p => match nth_error vs i with None => None | Some v => option_map (fun v' => set_nth i v' vs) (iv_insert srt v p) end
  | VRemove i p => match nth_error vs i with None => None | Some v => option_map (fun v' => set_nth i v' vs) (iv_remove srt hsrt v p) end
  | VSet i j => match nth_error vs i, nth_error vs j with Some v, Some o => option_map (fun v' => set_nth i v' vs) (iv_set v o) | _, _ => None end
  end.
Definition cv_run srt hsrt (vs : list ivor) (ops : list cop) : option (list ivor) := foldM (cv_exec srt hsrt) ops vs.

(** Set is called with two different diagrams (for v.Set(v) see C49_self_refuted). *)
Definition two_diagrams (o : cop) : Prop := match o with VSet i j => i <> j | _ => True end.

(** What a diagram on slices holds. *)
Definition show_iv (m : list (list fpoint)) (v : hiv) : ivor :=
  IV (hv_d v) (hv_w v) (hv_h v) (map (map (fun e => (fst e, elems m (snd e)))) (hv_map v)).
Definition show_world (s : cworld) : list ivor := map (show_iv (cw_heap s)) (cw_objs s).
Definition no_diagrams : cworld := CW [] [].

(** Later calls do not change what the slice shows. *)
Definition keeps (s s' : cworld) (k : header) : Prop := elems (cw_heap s') k = elems (cw_heap s) k.

(** ---------- the cache of the polygon functions ---------- *)
(** What an entry of the cache holds, and that its slice lies in the heap. *)
Definition show_entry (m : list (list Z)) (e : hentry) : pentry := PEntry (elems m (he_coords e)) (he_fit e) (he_hash e).
Definition in_heap (m : list (list Z)) (e : hentry) : Prop := h_arr (he_coords e) < length m /\ h_len (he_coords e) <= length (nth (h_arr (he_coords e)) m []).
Definition cache_in_heap (m : list (list Z)) (tris : list (option hentry)) : Prop := forall e, In (Some e) tris -> in_heap m e.
