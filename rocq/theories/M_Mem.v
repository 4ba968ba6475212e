(** Delaunay, CircumcircleGrid and pointMap on Go's slices: which array every slice of a
    triangulation lies in, which arrays append and Set make, what is left beyond the length of a
    slice, and the scratch slices edges, hull and ears that every call uses again.  Several
    triangulations share one memory.

    A memory has one heap of arrays for each element type.  As in M_Heap every slice starts
    at the beginning of its array (the package only reslices with [:n]), the capacity is the
    length of the array, and a nil slice is an empty array of its own.  Simplified: the outer
    slices of the grid and the point map, which are made once and never resized
    (grid.go:23-26, pointmap.go:11), are lists of headers that belong to the triangulation. *)
From Coq Require Import ZArith List Bool Arith.
From Flocq Require Import IEEE754.BinarySingleNaN.
From Verif Require Import GoNum M_Norm M_Slice M_Geom M_Image M_Raster M_Delaunay M_Heap M_Cells.
Import ListNotations.
Local Open Scope nat_scope.

(* ------------------------------------------------------------------ *)
(** * Slices *)
Section Slices.
Context {A : Type} (zero : A).
(** s[i] *)
Definition at_ (h : list (list A)) (s : header) (i : Z) : option A := znth (elems h s) i.
(** s[i] = v *)
Definition put (h : list (list A)) (s : header) (i : Z) (v : A) : option (list (list A)) :=
  match at_ h s i with
  | None => None
  | Some _ => Some (set_nth (h_arr s) (set_nth (Z.to_nat i) v (nth (h_arr s) h [])) h)
  end.
(** s[i] = s[len(s)-1]; s = s[:len(s)-1] *)
Definition drop_at (h : list (list A)) (s : header) (i : nat) : option (list (list A) * header) :=
  match at_ h s (Z.of_nat (h_len s) - 1) with
  | None => None
  | Some v => option_map (fun h' => (h', Hd (h_arr s) (h_len s - 1))) (put h s (Z.of_nat i) v)
  end.
(** s = append(s[:i], s[i+1:]...): the elements after i move down in the same array. *)
Definition close_gap (h : list (list A)) (s : header) (i : nat) : option (list (list A) * header) :=
  if i <? h_len s then
    Some (set_nth (h_arr s) (splice i (skipn (S i) (elems h s)) (nth (h_arr s) h [])) h, Hd (h_arr s) (h_len s - 1))
  else None.
(** s = s[:cap(s)]; if len(s) > len(o) { s = s[:len(o)] } else if len(s) < len(o)
    { s = make([]T, len(o)) }; copy(s, o) *)
Definition slice_set (h : list (list A)) (s o : header) : list (list A) * header :=
  let c := length (nth (h_arr s) h []) in
  let (h2, s2) :=
    if h_len o <? c then (h, Hd (h_arr s) (h_len o))
    else if c <? h_len o then (h ++ [repeat zero (h_len o)], Hd (length h) (h_len o))
    else (h, Hd (h_arr s) c) in
  (set_nth (h_arr s2) (splice 0 (firstn (Nat.min (h_len s2) (h_len o)) (elems h2 o)) (nth (h_arr s2) h2 [])) h2, s2).
(** The same for every slice of a row, with the slice of the same index of the other row. *)
Fixpoint row_set (h : list (list A)) (l o : list header) : option (list (list A) * list header) :=
  match l, o with
  | [], _ => Some (h, [])
  | _ :: _, [] => None
  | s :: l', t :: o' =>
      let (h1, s1) := slice_set h s t in
      option_map (fun hl => (fst hl, s1 :: snd hl)) (row_set h1 l' o')
  end.
Fixpoint rows_set (h : list (list A)) (l o : list (list header)) : option (list (list A) * list (list header)) :=
  match l, o with
  | [], _ => Some (h, [])
  | _ :: _, [] => None
  | s :: l', t :: o' =>
      match row_set h s t with
      | None => None
      | Some (h1, s1) => option_map (fun hl => (fst hl, s1 :: snd hl)) (rows_set h1 l' o')
      end
  end.
(** n nil slices, and m rows of them. *)
Fixpoint nil_row (h : list (list A)) (n : nat) : list (list A) * list header :=
  match n with
  | O => (h, [])
  | S n' => let (h1, s) := make_empty zero h 0 in let (h2, l) := nil_row h1 n' in (h2, s :: l)
  end.
Fixpoint nil_rows (h : list (list A)) (n m : nat) : list (list A) * list (list header) :=
  match m with
  | O => (h, [])
  | S m' => let (h1, r) := nil_row h n in let (h2, l) := nil_rows h1 n m' in (h2, r :: l)
  end.
End Slices.

(** t[x][y] and t[x][y] = s *)
Definition xcell (t : list (list header)) (xy : Z * Z) : option header :=
  match znth t (fst xy) with None => None | Some col => znth col (snd xy) end.
Definition set_xcell (t : list (list header)) (xy : Z * Z) (s : header) : option (list (list header)) :=
  match znth t (fst xy) with
  | None => None
  | Some col => match zset col (snd xy) s with None => None | Some col' => zset t (fst xy) col' end
  end.

(* ------------------------------------------------------------------ *)
(** * Memories and triangulations *)

Record mem := Mem {
  m_t : list (list dtri); m_i : list (list Z); m_b : list (list pentry);
  m_e : list (list edge); m_p : list (list point); m_r : list (list ear) }.
Definition no_mem : mem := Mem [] [] [] [] [] [].

(** type Delaunay (delaunay.go:11-30).  [x_shape] holds cols, rows, rowPixels and colPixels of
    the grid, [x_cells] its slices, [x_pm] the slices of the point map. *)
Record xd := XD {
  x_tris : header; x_shape : grid; x_cells : list (list header); x_pm : list header; x_free : header; x_super : dtri;
  x_edges : header; x_hull : header; x_ears : header; x_num : Z; x_unique : Z }.

(** The zero values that fill new arrays. *)
Definition zero_tri : dtri := DT (Pt 0 0) (Pt 0 0) (Pt 0 0) (Circ (f32_dy 0 0) (f32_dy 0 0) (f32_dy 0 0)).
Definition zero_entry : pentry := PE 0 0 0.
Definition zero_edge : edge := (Pt 0 0, Pt 0 0).
Definition zero_ear : ear := Ear (Pt 0 0) (Pt 0 0) (Pt 0 0) f0.

(** The triangles, the grid and the free indices: heaps and slices. *)
Record tstate := TS { t_ht : list (list dtri); t_tris : header; t_hi : list (list Z); t_cells : list (list header); t_free : header }.

Section Mem.
(** [grow] tells how many free elements the runtime gives to an array that append makes. *)
Context (grow : forall A : Type, list (list A) -> nat).

(* ------------------------------------------------------------------ *)
(** * pointmap.go *)

(** pointMap.AddPoint (pointmap.go:16-35). *)
Definition x_add_point (h : list (list pentry)) (pm : list header) (p : point) : option (list (list pentry) * list header * Z) :=
  match bucket_index pm p with
  | None => None
  | Some i =>
      match znth pm i with
      | None => None
      | Some s =>
          match find_index (entry_is p) (elems h s) with
          | Some k =>
              match at_ h s (Z.of_nat k) with
              | None => None
              | Some e => let c := u16 (pe_count e + 1) in option_map (fun h' => (h', pm, c)) (put h s (Z.of_nat k) (PE (pe_x e) (pe_y e) c))
              end
          | None =>
              let (h', s') := push zero_entry (grow _) (h, s) (PE (u16 (px p)) (u16 (py p)) 1) in
              option_map (fun pm' => (h', pm', 1%Z)) (zset pm i s')
          end
      end
  end.

(** pointMap.RemovePoint (pointmap.go:39-59): the count is written before the entry goes. *)
Definition x_remove_point (h : list (list pentry)) (pm : list header) (p : point) : option (list (list pentry) * list header * Z) :=
  match bucket_index pm p with
  | None => None
  | Some i =>
      match znth pm i with
      | None => None
      | Some s =>
          match find_index (entry_is p) (elems h s) with
          | None => None
          | Some k =>
              match at_ h s (Z.of_nat k) with
              | None => None
              | Some e =>
                  let c := u16 (pe_count e - 1) in
                  match put h s (Z.of_nat k) (PE (pe_x e) (pe_y e) c) with
                  | None => None
                  | Some h1 =>
                      if (c =? 0)%Z then
                        match drop_at h1 s k with
                        | None => None
                        | Some (h2, s2) => option_map (fun pm' => (h2, pm', 0%Z)) (zset pm i s2)
                        end
                      else Some (h1, pm, c)
                  end
              end
          end
      end
  end.

(* ------------------------------------------------------------------ *)
(** * grid.go *)

(** A step of the loops over the cells of a box: col[y] is replaced. *)
Definition on_slice (f : list (list Z) -> header -> option (list (list Z) * header)) (st : list (list Z) * list (list header)) (xy : Z * Z)
  : option (list (list Z) * list (list header)) :=
  match xcell (snd st) xy with
  | None => None
  | Some s => match f (fst st) s with None => None | Some (h, s') => option_map (fun t => (h, t)) (set_xcell (snd st) xy s') end
  end.

(** AddTriangle (grid.go:31-61). *)
Definition x_grid_add (sh : grid) (h : list (list Z)) (cells : list (list header)) (t : dtri) (index : Z) : option (list (list Z) * list (list header)) :=
  foldM (on_slice (fun h s => Some (push 0%Z (grow _) (h, s) index))) (box_cells sh (d_circ t)) (h, cells).

(** RemoveTriangle (grid.go:64-102). *)
Definition x_delete (index : Z) (h : list (list Z)) (s : header) : option (list (list Z) * header) :=
  match find_index (Z.eqb index) (elems h s) with None => Some (h, s) | Some i => drop_at h s i end.
Definition x_grid_remove (sh : grid) (h : list (list Z)) (cells : list (list header)) (t : dtri) (index : Z) : option (list (list Z) * list (list header)) :=
  foldM (on_slice (x_delete index)) (box_cells sh (d_circ t)) (h, cells).

(* ------------------------------------------------------------------ *)
(** * delaunay.go *)

(** addTriangle (delaunay.go:235-249). *)
Definition x_add_triangle (sh : grid) (ts : tstate) (t : dtri) : option tstate :=
  if 0 <? h_len (t_free ts) then
    match at_ (t_hi ts) (t_free ts) (Z.of_nat (h_len (t_free ts)) - 1) with
    | None => None
    | Some index =>
        match put (t_ht ts) (t_tris ts) index t with
        | None => None
        | Some ht =>
            match x_grid_add sh (t_hi ts) (t_cells ts) t index with
            | None => None
            | Some (hi, cells) => Some (TS ht (t_tris ts) hi cells (Hd (h_arr (t_free ts)) (h_len (t_free ts) - 1)))
            end
        end
    end
  else
    match x_grid_add sh (t_hi ts) (t_cells ts) t (u16 (Z.of_nat (h_len (t_tris ts)))) with
    | None => None
    | Some (hi, cells) =>
        let (ht, tris) := push zero_tri (grow _) (t_ht ts, t_tris ts) t in
        Some (TS ht tris hi cells (t_free ts))
    end.

(** markFreeTriangle (delaunay.go:253-256). *)
Definition x_mark_free (ts : tstate) (i : Z) : option tstate :=
  match at_ (t_ht ts) (t_tris ts) i with
  | None => None
  | Some t =>
      match put (t_ht ts) (t_tris ts) i (DT (Pt (-1) (py (d_a t))) (d_b t) (d_c t) (d_circ t)) with
      | None => None
      | Some ht =>
          let (hi, free) := push 0%Z (grow _) (t_hi ts, t_free ts) i in
          Some (TS ht (t_tris ts) hi (t_cells ts) free)
      end
  end.

(** addEdge (delaunay.go:209-222) and the three calls for a triangle (delaunay.go:63-65). *)
Definition x_add_edge (st : list (list edge) * header) (e : edge) : option (list (list edge) * header) :=
  match find_index (edge_eq e) (elems (fst st) (snd st)) with
  | Some i => drop_at (fst st) (snd st) i
  | None => Some (push zero_edge (grow _) st e)
  end.
Definition x_add_tri_edges (st : list (list edge) * header) (t : dtri) : option (list (list edge) * header) :=
  foldM x_add_edge [new_edge (d_a t) (d_b t); new_edge (d_b t) (d_c t); new_edge (d_c t) (d_a t)] st.

(** RemoveCircumcirclesThatContain (grid.go:136-166) with the callback of Insert
    (delaunay.go:60-68).  [grp] and [trs] are the slices group and triangles, taken before the
    loop; [n] is size - i. *)
Fixpoint x_circles_loop (n i : nat) (p : point) (sh : grid) (grp trs : header) (ts : tstate) (es : list (list edge) * header)
  : option (tstate * (list (list edge) * header)) :=
  match n with
  | O => Some (ts, es)
  | S n' =>
      match at_ (t_hi ts) grp (Z.of_nat i) with
      | None => None
      | Some t =>
          match at_ (t_ht ts) trs t with
          | None => None
          | Some tri =>
              if is_freed tri then None
              else if contains_point tri p then
                match at_ (t_ht ts) (t_tris ts) t with
                | None => None
                | Some tri' =>
                    match x_add_tri_edges es tri' with
                    | None => None
                    | Some es' =>
                        match x_mark_free ts t with
                        | None => None
                        | Some ts1 =>
                            match x_grid_remove sh (t_hi ts1) (t_cells ts1) tri t with
                            | None => None
                            | Some (hi, cells) => x_circles_loop n' i p sh grp trs (TS (t_ht ts1) (t_tris ts1) hi cells (t_free ts1)) es'
                            end
                        end
                    end
                end
              else x_circles_loop n' (S i) p sh grp trs ts es
          end
      end
  end.

(** The loop over d.edges (delaunay.go:71-79): the slice is taken before the loop. *)
Definition x_connect (p : point) (sh : grid) (es : list (list edge) * header) (ts : tstate) (k : nat) : option tstate :=
  match at_ (fst es) (snd es) (Z.of_nat k) with
  | None => None
  | Some e =>
      let A := i16 (px (snd e) - px (fst e)) in
      let B := i16 (py (snd e) - py (fst e)) in
      let G := i64 (A * i16 (py p - py (snd e)) - B * i16 (px p - px (snd e))) in
      if (G =? 0)%Z then Some ts else x_add_triangle sh ts (new_triangle (fst e) (snd e) p)
  end.

Definition tstate_of (m : mem) (x : xd) : tstate := TS (m_t m) (x_tris x) (m_i m) (x_cells x) (x_free x).

(** Insert (delaunay.go:50-82), with resetEdges (225-227). *)
Definition x_insert (m : mem) (x : xd) (p : point) : option (mem * xd) :=
  match x_add_point (m_b m) (x_pm x) p with
  | None => None
  | Some (hb, pm, c) =>
      let unique := if (c =? 1)%Z then (x_unique x + 1)%Z else x_unique x in
      match xcell (x_cells x) (point_cell (x_shape x) p) with
      | None => None
      | Some grp =>
          match x_circles_loop (h_len grp) 0 p (x_shape x) grp (x_tris x) (tstate_of m x) (m_e m, Hd (h_arr (x_edges x)) 0) with
          | None => None
          | Some (ts, es) =>
              match foldM (x_connect p (x_shape x) es) (seq 0 (h_len (snd es))) ts with
              | None => None
              | Some ts' =>
                  Some (Mem (t_ht ts') (t_hi ts') hb (fst es) (m_p m) (m_r m),
                        XD (t_tris ts') (x_shape x) (t_cells ts') pm (t_free ts') (x_super x) (snd es) (x_hull x) (x_ears x) (x_num x + 1) unique)
              end
          end
      end
  end.

(** The closure addPoint of Remove (delaunay.go:95-110). *)
Definition x_hull_add (p : point) (st : list (list point) * header) (po : point) : list (list point) * header :=
  if peq po p then st else if existsb (peq po) (elems (fst st) (snd st)) then st else push (Pt 0 0) (grow _) st po.

(** RemoveThatHasVertex (grid.go:199-226) with the callback of Remove (delaunay.go:113-121). *)
Fixpoint x_vertex_loop (n i : nat) (p : point) (sh : grid) (grp trs : header) (ts : tstate) (hull : list (list point) * header)
  : option (tstate * (list (list point) * header)) :=
  match n with
  | O => Some (ts, hull)
  | S n' =>
      match at_ (t_hi ts) grp (Z.of_nat i) with
      | None => None
      | Some t =>
          match at_ (t_ht ts) trs t with
          | None => None
          | Some tri =>
              if has_vertex tri p then
                match at_ (t_ht ts) (t_tris ts) t with
                | None => None
                | Some tri' =>
                    let hull' := x_hull_add p (x_hull_add p (x_hull_add p hull (d_a tri')) (d_b tri')) (d_c tri') in
                    match x_mark_free ts t with
                    | None => None
                    | Some ts1 =>
                        match x_grid_remove sh (t_hi ts1) (t_cells ts1) tri t with
                        | None => None
                        | Some (hi, cells) => x_vertex_loop n' i p sh grp trs (TS (t_ht ts1) (t_tris ts1) hi cells (t_free ts1)) hull'
                        end
                    end
                end
              else x_vertex_loop n' (S i) p sh grp trs ts hull
          end
      end
  end.

(** One of the ears of the hull (delaunay.go:158-162). *)
Definition x_init_ear (p : point) (hull : list (list point) * header) (st : list (list ear) * header) (i : nat) : option (list (list ear) * header) :=
  let n := h_len (snd hull) in
  let get k := at_ (fst hull) (snd hull) (Z.of_nat ((i + k) mod n)) in
  match get 0, get 1, get 2 with
  | Some a, Some b, Some c => Some (push zero_ear (grow _) st (mk_ear p a b c))
  | _, _, _ => None
  end.

(** The ears before and after the chosen one (delaunay.go:185-200). *)
Definition x_cut_ear (p : point) (st : list (list ear) * header) (index : nat) : option (list (list ear) * header) :=
  let (h, s) := st in
  let n := h_len s in
  let before := if index =? 0 then n - 1 else index - 1 in
  let after := (index + 1) mod n in
  match at_ h s (Z.of_nat index), at_ h s (Z.of_nat before) with
  | Some e, Some eb =>
      match put h s (Z.of_nat before) (mk_ear p (e_a eb) (e_b eb) (e_c e)) with
      | None => None
      | Some h1 =>
          match at_ h1 s (Z.of_nat index), at_ h1 s (Z.of_nat after) with
          | Some e, Some ea =>
              match put h1 s (Z.of_nat after) (mk_ear p (e_a e) (e_b ea) (e_c ea)) with
              | None => None
              | Some h2 => close_gap h2 s index
              end
          | _, _ => None
          end
      end
  | _, _ => None
  end.

(** The ear loop (delaunay.go:164-205), which adds each triangle when it is chosen. *)
Fixpoint x_ear_loop (fuel : nat) (p : point) (sh : grid) (ts : tstate) (st : list (list ear) * header) : option (tstate * (list (list ear) * header)) :=
  match fuel with
  | O => None
  | S fuel' =>
      if 3 <? h_len (snd st) then
        let index := lowest 0 max_float64 0 (elems (fst st) (snd st)) in
        match at_ (fst st) (snd st) (Z.of_nat index) with
        | None => None
        | Some e =>
            match x_add_triangle sh ts (new_triangle (e_a e) (e_b e) (e_c e)) with
            | None => None
            | Some ts' => match x_cut_ear p st index with None => None | Some st' => x_ear_loop fuel' p sh ts' st' end
            end
        end
      else
        match at_ (fst st) (snd st) 0 with
        | None => None
        | Some e => option_map (fun ts' => (ts', st)) (x_add_triangle sh ts (new_triangle (e_a e) (e_b e) (e_c e)))
        end
  end.

(** Remove (delaunay.go:86-206).  [sort] is what sort.Slice makes of the elements of d.hull. *)
Definition x_remove (sort : list point -> option (list point)) (m : mem) (x : xd) (p : point) : option (mem * xd) :=
  match x_remove_point (m_b m) (x_pm x) p with
  | None => None
  | Some (hb, pm, c) =>
      if negb (c =? 0)%Z then
        Some (Mem (m_t m) (m_i m) hb (m_e m) (m_p m) (m_r m),
              XD (x_tris x) (x_shape x) (x_cells x) pm (x_free x) (x_super x) (x_edges x) (x_hull x) (x_ears x) (x_num x - 1) (x_unique x))
      else
        match xcell (x_cells x) (point_cell (x_shape x) p) with
        | None => None
        | Some grp =>
            match x_vertex_loop (h_len grp) 0 p (x_shape x) grp (x_tris x) (tstate_of m x) (m_p m, Hd (h_arr (x_hull x)) 0) with
            | None => None
            | Some (ts, (hp, hull)) =>
                match sort (elems hp hull) with
                | None => None
                | Some sorted =>
                    let hp' := overwrite hp hull sorted in
                    match foldM (x_init_ear p (hp', hull)) (seq 0 (h_len hull)) (m_r m, Hd (h_arr (x_ears x)) 0) with
                    | None => None
                    | Some st =>
                        match x_ear_loop (S (h_len hull)) p (x_shape x) ts st with
                        | None => None
                        | Some (ts', (hr, ears)) =>
                            Some (Mem (t_ht ts') (t_hi ts') hb (m_e m) hp' hr,
                                  XD (t_tris ts') (x_shape x) (t_cells ts') pm (t_free ts') (x_super x) (x_edges x) hull ears (x_num x - 1) (x_unique x - 1))
                        end
                    end
                end
            end
        end
  end.

(** NewDelaunay (delaunay.go:33-46), NewCircumcircleGrid (grid.go:16-28) and newPointMap
    (pointmap.go:9-13). *)
Definition x_new (m : mem) (w h : Z) : option (mem * xd) :=
  let s := new_super_triangle w h in
  let sh := Grid [] 10 10 (fdiv (f64_of_Z h) (f64_of_Z 10)) (fdiv (f64_of_Z w) (f64_of_Z 10)) in
  let (ht, tris) := make_empty zero_tri (m_t m) 0 in
  let (hi, cells) := nil_rows 0%Z (m_i m) 10 10 in
  let (hi, free) := make_empty 0%Z hi 0 in
  let (hb, pm) := nil_row zero_entry (m_b m) 100 in
  let (he, edges) := make_empty zero_edge (m_e m) 0 in
  let (hp, hull) := make_empty (Pt 0 0) (m_p m) 0 in
  let (hr, ears) := make_empty zero_ear (m_r m) 0 in
  match x_add_triangle sh (TS ht tris hi cells free) s with
  | None => None
  | Some ts => Some (Mem (t_ht ts) (t_hi ts) hb he hp hr, XD (t_tris ts) sh (t_cells ts) pm (t_free ts) s edges hull ears 0 0)
  end.

(** Set (delaunay.go:280-304), CircumcircleGrid.Set (grid.go:256-269) and pointMap.Set
    (pointmap.go:85-96), for two different triangulations. *)
Definition x_set (m : mem) (x o : xd) : option (mem * xd) :=
  let (ht, tris) := slice_set zero_tri (m_t m) (x_tris x) (x_tris o) in
  let (hi, free) := slice_set 0%Z (m_i m) (x_free x) (x_free o) in
  match rows_set 0%Z hi (x_cells x) (x_cells o) with
  | None => None
  | Some (hi', cells) =>
      match row_set zero_entry (m_b m) (x_pm x) (x_pm o) with
      | None => None
      | Some (hb, pm) =>
          Some (Mem ht hi' hb (m_e m) (m_p m) (m_r m),
                XD tris (x_shape x) cells pm free (x_super o) (x_edges x) (x_hull x) (x_ears x) (x_num x) (x_unique x))
      end
  end.

(** Set of a triangulation to itself (the same functions with other = d): every slice is
    lengthened to its capacity first, which is then the length of other as well. *)
Definition to_cap {A} (h : list (list A)) (s : header) : header := Hd (h_arr s) (length (nth (h_arr s) h [])).
Definition x_set_self (m : mem) (x : xd) : xd :=
  XD (to_cap (m_t m) (x_tris x)) (x_shape x) (map (map (to_cap (m_i m))) (x_cells x)) (map (to_cap (m_b m)) (x_pm x)) (to_cap (m_i m) (x_free x)) (x_super x)
     (x_edges x) (x_hull x) (x_ears x) (x_num x) (x_unique x).

(* ------------------------------------------------------------------ *)
(** * Programs over several triangulations *)
Inductive dop := DNew (w h : Z) | DInsert (k : nat) (p : point) | DRemove (k : nat) (p : point) | DSet (k o : nat).
Record pool := Pool { w_mem : mem; w_all : list xd }.
Definition at_pool (s : pool) (k : nat) (r : option (mem * xd)) : option pool :=
  option_map (fun mx => Pool (fst mx) (set_nth k (snd mx) (w_all s))) r.
Definition x_step (sort : point -> list point -> option (list point)) (s : pool) (op : dop) : option pool :=
  match op with
  | DNew w h => option_map (fun mx => Pool (fst mx) (w_all s ++ [snd mx])) (x_new (w_mem s) w h)
  | DInsert k p => match nth_error (w_all s) k with None => None | Some x => at_pool s k (x_insert (w_mem s) x p) end
  | DRemove k p => match nth_error (w_all s) k with None => None | Some x => at_pool s k (x_remove (sort p) (w_mem s) x p) end
  | DSet k o => match nth_error (w_all s) k, nth_error (w_all s) o with Some x, Some y => at_pool s k (x_set (w_mem s) x y) | _, _ => None end
  end.
Definition x_run (sort : point -> list point -> option (list point)) (ops : list dop) (s : pool) : option pool := foldM (x_step sort) ops s.
Definition no_pool : pool := Pool no_mem [].
End Mem.
