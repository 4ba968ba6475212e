(** Voronoi and IVoronoi on Go's slices.  Both fill the same scratch slices (points and
    newPolygon) for one cell after the other; here it is part of the model which array a
    polygon lies in, who else has it and who writes to it.  The same for the slice
    polygonData of fitness/polygons.go and the coordinates kept in the cache.

    Simplified: what is appended to a scratch slice for one cell is computed first and then
    appended (the loops read points and, within the loop, newPolygon is only appended to); a
    nil slice is an empty array of its own.  The slices of the triangulation and of the
    buckets of the maps are values here, see C49. *)
From Coq Require Import ZArith List Bool Arith.
From Verif Require Import GoNum M_Norm M_Slice M_Geom M_Image M_Raster M_Delaunay M_Algo M_Fitness M_Voronoi M_Polygons M_Heap.
Import ListNotations.
Local Open Scope nat_scope.

Section Slices.
(** [grow h] is the number of free elements the runtime gives to an array made while the heap
    is [h]. *)
Context {A : Type} (zero : A) (grow : list (list A) -> nat).

(** The elements of a slice. *)
Definition elems (h : list (list A)) (s : header) : list A := firstn (h_len s) (nth (h_arr s) h []).
(** s = append(s, v) *)
Definition push (hs : list (list A) * header) (v : A) : list (list A) * header :=
  let (h, s) := hs in
  let a := nth (h_arr s) h [] in
  if h_len s <? length a then (set_nth (h_arr s) (set_nth (h_len s) v a) h, Hd (h_arr s) (S (h_len s)))
  else (h ++ [firstn (h_len s) a ++ [v] ++ repeat zero (grow h)], Hd (length h) (S (h_len s))).
(** s = s[:0], followed by appends *)
Definition refill (h : list (list A)) (s : header) (vs : list A) : list (list A) * header := fold_left push vs (h, Hd (h_arr s) 0).
(** The elements replaced by as many others (sort.Slice). *)
Definition overwrite (h : list (list A)) (s : header) (l : list A) : list (list A) := set_nth (h_arr s) (splice 0 l (nth (h_arr s) h [])) h.
(** var new []T; new = append(new, vs...) *)
Definition fresh_copy (h : list (list A)) (vs : list A) : list (list A) * header := (h ++ [vs ++ repeat zero (grow h)], Hd (length h) (length vs)).
(** make([]T, 0, n); a nil slice for n = 0. *)
Definition make_empty (h : list (list A)) (n : nat) : list (list A) * header := (h ++ [repeat zero n], Hd (length h) 0).
End Slices.

(* ------------------------------------------------------------------ *)
(** * voronoi.go *)

Definition no_point : fpoint := NP f0 f0.

Section Cells.
Context (grow : list (list fpoint) -> nat) (srt : sorter).
Definition heapf := list (list fpoint).

(** The computation of a cell in Voronoi (voronoi.go:318-479) and processPoint
    (voronoi.go:102-263): the heap and the scratch slices afterwards, and the scratch slice
    that holds the cell. *)
Definition h_cell (d : delaunay) (w h : Z) (st : heapf * header * header) (p : point) : option (heapf * header * header * header) :=
  let '(m, points, newPolygon) := st in
  match centres d p with
  | None => None
  | Some cs =>
      let (vs, clip) := fold_left (collect w h) cs ([], false) in
      let (m1, points1) := refill no_point grow m points vs in
      match srt (around (NP (f64_of_Z (px p)) (f64_of_Z (py p)))) (elems m1 points1) with
      | None => None
      | Some sorted =>
          let m2 := overwrite m1 points1 sorted in
          if clip then
            let (m3, new1) := refill no_point grow m2 newPolygon (clip_polygon w h (elems m2 points1)) in
            match srt (around_second (mean (elems m3 new1))) (elems m3 new1) with
            | None => None
            | Some sorted => Some (overwrite m3 new1 sorted, points1, new1, new1)
            end
          else Some (m2, points1, newPolygon, points1)
      end
  end.

(** The loop of Voronoi (voronoi.go:317-489): the slices passed to the callback, each with the
    elements it has at that time. *)
Fixpoint h_voronoi_loop (d : delaunay) (w h : Z) (st : heapf * header * header) (ps : list point) : option (heapf * list (header * list fpoint)) :=
  match ps with
  | [] => Some (fst (fst st), [])
  | p :: ps' =>
      match h_cell d w h st p with
      | None => None
      | Some (m, points, newPolygon, out) =>
          match h_voronoi_loop d w h (m, points, newPolygon) ps' with
          | None => None
          | Some (m', log) => Some (m', if nonempty (elems m out) then (out, elems m out) :: log else log)
          end
      end
  end.
(** Voronoi (voronoi.go:311-490). *)
Definition h_voronoi (d : delaunay) (w h : Z) (m : heapf) : option (heapf * list (header * list fpoint)) :=
  let (m1, points) := make_empty no_point m 8 in
  let (m2, newPolygon) := make_empty no_point m1 8 in
  h_voronoi_loop d w h (m2, points, newPolygon) (pm_iter (d_pmap d)).

(** type polygonMap (polygonmap.go:3-5, 61-64) with the polygons as slices; AddPolygon (15-22),
    RemovePolygon (24-36) and IterPolygons (52-58). *)
Definition hmap := list (list (point * header)).
Definition hm_add (gm : hmap) (p : point) (s : header) : option hmap :=
  match bucket gm p with None => None | Some (i, b) => zset gm i (b ++ [(p, s)]) end.
Definition hm_remove (gm : hmap) (p : point) : option hmap :=
  match bucket gm p with
  | None => None
  | Some (i, b) => match find_index (fun e => peq (fst e) p) b with None => None | Some k => zset gm i (swap_delete k b) end
  end.
Definition hm_iter (gm : hmap) : list header := map snd (concat gm).

(** type IVoronoi (voronoi.go:18-27). *)
Record hiv := HIV { hv_d : delaunay; hv_w : Z; hv_h : Z; hv_points : header; hv_new : header; hv_map : hmap }.

(** NewVoronoi (voronoi.go:8-16): points and newPolygon are nil. *)
Definition hiv_make (w h : Z) (m : heapf) : option (heapf * hiv) :=
  match new_delaunay w h with
  | None => None
  | Some d =>
      let (m1, points) := make_empty no_point m 0 in
      let (m2, newPolygon) := make_empty no_point m1 0 in
      Some (m2, HIV d w h points newPolygon (repeat [] 6))
  end.

(** processPoint (voronoi.go:99-278): the cell is copied to a new array (voronoi.go:265-277). *)
Definition h_process (d : delaunay) (w h : Z) (st : heapf * header * header * hmap) (p : point) : option (heapf * header * header * hmap) :=
  let '(m, points, newPolygon, gm) := st in
  match h_cell d w h (m, points, newPolygon) p with
  | None => None
  | Some (m1, points1, new1, out) =>
      let (m2, new) := fresh_copy no_point grow m1 (elems m1 out) in
      option_map (fun gm' => (m2, points1, new1, gm')) (hm_add gm p new)
  end.
(** The loops over pointsToUpdate (voronoi.go:47-56, 80-88). *)
Definition h_update (v : hiv) (d : delaunay) (m : heapf) (old new : list point) : option (heapf * hiv) :=
  match foldM hm_remove old (hv_map v) with
  | None => None
  | Some gm =>
      option_map (fun st => let '(m', points, newPolygon, gm') := st in (m', HIV d (hv_w v) (hv_h v) points newPolygon gm'))
        (foldM (h_process d (hv_w v) (hv_h v)) new (m, hv_points v, hv_new v, gm))
  end.
Definition with_d (v : hiv) (d : delaunay) : hiv := HIV d (hv_w v) (hv_h v) (hv_points v) (hv_new v) (hv_map v).

(** Insert (voronoi.go:29-57). *)
Definition hiv_insert (m : heapf) (v : hiv) (p : point) : option (heapf * hiv) :=
  match copies_of (d_pmap (hv_d v)) p with
  | None => None
  | Some c =>
      if (0 <? c)%Z then option_map (fun d => (m, with_d v d)) (insert (hv_d v) p)
      else
        match iter_circles_containing (d_grid (hv_d v)) p (d_tris (hv_d v)) with
        | None => None
        | Some l =>
            match foldM (update_corners (d_super (hv_d v)) (d_tris (hv_d v))) l [] with
            | None => None
            | Some upd => match insert (hv_d v) p with None => None | Some d => h_update v d m upd (to_update (d_super d) upd p) end
            end
        end
  end.
(** Remove (voronoi.go:59-89). *)
Definition hiv_remove (hsrt : point -> list point -> option (list point)) (m : heapf) (v : hiv) (p : point) : option (heapf * hiv) :=
  match copies_of (d_pmap (hv_d v)) p with
  | None => None
  | Some c =>
      if (1 <? c)%Z then option_map (fun d => (m, with_d v d)) (remove (hsrt p) (hv_d v) p)
      else
        match iter_with_vertex (d_grid (hv_d v)) p (d_tris (hv_d v)) with
        | None => None
        | Some l =>
            match foldM (update_corners (d_super (hv_d v)) (d_tris (hv_d v))) l [] with
            | None => None
            | Some upd => match remove (hsrt p) (hv_d v) p with None => None | Some d => h_update v d m upd (filter (fun q => negb (peq q p)) upd) end
            end
        end
  end.
(** IterPolygons (voronoi.go:91-97): the slices passed to the callback. *)
Definition hiv_iter (m : heapf) (v : hiv) : list header := filter (fun s => nonempty (elems m s)) (hm_iter (hv_map v)).
(** Set (voronoi.go:298-301): the entries are copied, so the polygons are shared. *)
Definition hiv_set (v o : hiv) : option hiv :=
  match d_set (hv_d v) (hv_d o), table_set (hv_map v) (hv_map o) with
  | Some d, Some gm => Some (HIV d (hv_w v) (hv_h v) (hv_points v) (hv_new v) gm)
  | _, _ => None
  end.

(** Any number of diagrams and any calls of their methods. *)
Record cworld := CW { cw_heap : heapf; cw_objs : list hiv }.
Inductive cop := VNew (w h : Z) | VInsert (i : nat) (p : point) | VRemove (i : nat) (p : point) | VSet (i j : nat).
Definition c_exec (hsrt : point -> list point -> option (list point)) (s : cworld) (o : cop) : option cworld :=
  match o with
  | VNew w h => option_map (fun r => CW (fst r) (cw_objs s ++ [snd r])) (hiv_make w h (cw_heap s))
  | VInsert i p =>
      match nth_error (cw_objs s) i with
      | None => None
      | Some v => option_map (fun r => CW (fst r) (set_nth i (snd r) (cw_objs s))) (hiv_insert (cw_heap s) v p)
      end
  | VRemove i p =>
      match nth_error (cw_objs s) i with
      | None => None
      | Some v => option_map (fun r => CW (fst r) (set_nth i (snd r) (cw_objs s))) (hiv_remove hsrt (cw_heap s) v p)
      end
  | VSet i j =>
      match nth_error (cw_objs s) i, nth_error (cw_objs s) j with
      | Some v, Some o => option_map (fun v' => CW (cw_heap s) (set_nth i v' (cw_objs s))) (hiv_set v o)
      | _, _ => None
      end
  end.
Definition c_run hsrt (s : cworld) (ops : list cop) : option cworld := foldM (c_exec hsrt) ops s.
End Cells.

(* ------------------------------------------------------------------ *)
(** * fitness/polygons.go *)

(** PolygonCacheData (cache.go:57-61) with coords as a slice. *)
Record hentry := HE { he_coords : header; he_fit : f64; he_hash : Z }.
Section Coords.
Context (grow : list (list Z) -> nat).
Definition heapz := list (list Z).
(** The variables of the loop over the polygons; [hp_data] is polygonData. *)
Record hpstate := HP { hp_heap : heapz; hp_data : header; hp_diff : f64; hp_next : list hentry; hp_tris : list (option hentry) }.
(** One iteration (polygons.go:76-150), see M_Polygons.poly_step; on a miss the coordinates are
    copied (polygons.go:138-141). *)
Definition h_poly_step (im : fimg) (alias : bool) (s : hpstate) (l : list fpoint) : option hpstate :=
  let poly := fast_polygon l in
  let (m1, data1) := refill 0%Z grow (hp_heap s) (hp_data s) (poly_coords poly) in
  let index0 := cache_index (Z.of_nat (length (hp_tris s))) (poly_hash (elems m1 data1)) in
  match znth (hp_tris s) index0 with
  | None => None
  | Some data =>
      let miss := match poly_diff im poly with None => None | Some diff => let (m2, new) := fresh_copy 0%Z grow m1 (elems m1 data1) in Some (m2, HE new diff index0) end in
      match (match data with
             | None => miss
             | Some e => if same_coords (elems m1 (he_coords e)) (elems m1 data1) then Some (m1, e) else miss end) with
      | None => None
      | Some (m2, e) =>
          Some (HP m2 data1 (fadd (hp_diff s) (he_fit e)) (hp_next s ++ [e])
                   (if alias then set_nth (length (hp_next s)) (Some e) (hp_tris s) else hp_tris s))
      end
  end.
(** Calculate from line 56 on (polygons.go:56-154). *)
Definition h_calc_poly (im : fimg) (alias : bool) (m : heapz) (tris : list (option hentry)) (v : ivor) : option (heapz * f64 * list hentry) :=
  let (m1, data) := make_empty 0%Z m 0 in
  option_map (fun s => (hp_heap s, fsub f1 (fdiv (hp_diff s) (fi_max im)), hp_next s)) (foldM (h_poly_step im alias) (iv_iter v) (HP m1 data f0 [] tris)).
End Coords.
