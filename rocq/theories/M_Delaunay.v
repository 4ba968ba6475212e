(** Model of package triangulation/incrdelaunay without voronoi.go.

    Slices are lists.  [None] is a panic (index out of range, explicit panic,
    division by zero).  [int16] fields hold integers in [-2^15, 2^15); every
    [int16] operation wraps explicitly ([i16]).  [int64] expressions built from
    +, -, * are computed in [Z] and wrapped once at the end ([i64]), which equals
    wrapping after every operation.  The scratch buffers edges, hull and ears are
    local values: every function that uses them resets them first. *)
From Coq Require Import ZArith List Bool.
From Flocq Require Import IEEE754.BinarySingleNaN.
From Verif Require Import GoNum M_Norm M_Slice M_Geom M_Image M_Raster.
Import ListNotations.
Open Scope Z_scope.

(** [l[i] = v]; [None] is an index out of range. *)
Definition zset {A} (l : list A) (i : Z) (v : A) : option (list A) :=
  match znth l i with None => None | Some _ => Some (set_nth (Z.to_nat i) v l) end.

(** A loop whose body may panic. *)
Fixpoint foldM {A S} (f : S -> A -> option S) (l : list A) (s : S) : option S :=
  match l with
  | [] => Some s
  | a :: t => match f s a with None => None | Some s' => foldM f t s' end
  end.

(** Point comparison with [==]. *)
Definition peq (p q : point) : bool := (px p =? px q) && (py p =? py q).

(* ------------------------------------------------------------------ *)
(** * util.go *)

(** orientation (util.go:29-31). *)
Definition orientation (aX aY bX bY cX cY : Z) : Z := i64 ((aX - cX) * (bY - cY) - (bX - cX) * (aY - cY)).

(** inCircle (util.go:9-26). *)
Definition in_circle (aX aY bX bY cX cY dX dY : Z) : Z :=
  let '(aX, bX, aY, bY) := if orientation aX aY bX bY cX cY <? 0 then (bX, aX, bY, aY) else (aX, bX, aY, bY) in
  let a11 := aX - dX in
  let a21 := bX - dX in
  let a31 := cX - dX in
  let a12 := aY - dY in
  let a22 := bY - dY in
  let a32 := cY - dY in
  i64 ((a11*a11+a12*a12)*(a21*a32-a31*a22) +
       (a21*a21+a22*a22)*(a31*a12-a11*a32) +
       (a31*a31+a32*a32)*(a11*a22-a21*a12)).

(** math.MaxFloat64 *)
Definition max_float64 : f64 := f64_dy (2 ^ 53 - 1) 971.

(** calculateScore (util.go:35-45). *)
Definition calculate_score (a b c d : point) : f64 :=
  let o := orientation (px a) (py a) (px b) (py b) (px c) (py c) in
  if o <=? 0 then max_float64
  else fdiv (f64_of_Z (in_circle (px a) (py a) (px b) (py b) (px c) (py c) (px d) (py d))) (f64_of_Z o).

(* ------------------------------------------------------------------ *)
(** * geom.go *)

(** type Circumcircle (geom.go:63-66). *)
Record circ := Circ { cc_x : f32; cc_y : f32; cc_r : f32 }.

(** type Triangle (geom.go:8-11). *)
Record dtri := DT { d_a : point; d_b : point; d_c : point; d_circ : circ }.

(** calcCircumcircle (geom.go:69-93). *)
Definition calc_circumcircle (v0 v1 v2 : point) : circ :=
  let A := i16 (px v1 - px v0) in
  let B := i16 (py v1 - py v0) in
  let C := i16 (px v2 - px v0) in
  let D := i16 (py v2 - py v0) in
  let E := A * i16 (px v0 + px v1) + B * i16 (py v0 + py v1) in
  let F := C * i16 (px v0 + px v2) + D * i16 (py v0 + py v2) in
  let G := f64_of_Z (i64 (2 * (A * i16 (py v2 - py v1) - B * i16 (px v2 - px v1)))) in
  let cx := fdiv (f64_of_Z (i64 (D * E - B * F))) G in
  let cy := fdiv (f64_of_Z (i64 (A * F - C * E))) G in
  let dx := fsub cx (f64_of_Z (px v0)) in
  let dy := fsub cy (f64_of_Z (py v0)) in
  Circ (f32_of_f64 cx) (f32_of_f64 cy) (f32_of_f64 (fsqrt (fadd (fmul dx dx) (fmul dy dy)))).

(** NewTriangle (geom.go:14-21). *)
Definition new_triangle (a b c : point) : dtri := DT a b c (calc_circumcircle a b c).

(** Triangle.HasVertex (geom.go:24-26). *)
Definition has_vertex (t : dtri) (p : point) : bool := peq (d_a t) p || peq (d_b t) p || peq (d_c t) p.

(** NewSuperTriangle (geom.go:29-42). *)
Definition new_super_triangle (w h : Z) : dtri :=
  let hW := i16 (go_int (fceil (fdiv (f64_of_Z w) (f64_of_Z 2)))) in
  let hH := i16 (go_int (fceil (fdiv (f64_of_Z h) (f64_of_Z 2)))) in
  let max := if h >? w then i16 h else i16 w in
  new_triangle (Pt (i16 (hW - i16 (2 * max))) (i16 (hH - max)))
               (Pt hW (i16 (hH + i16 (2 * max))))
               (Pt (i16 (hW + i16 (2 * max))) (i16 (hH - max))).

(** Point.DistSq (geom.go:50-55). *)
Definition dist_sq (p b : point) : Z :=
  let dX := i16 (px b - px p) in
  let dY := i16 (py b - py p) in
  i64 (dX * dX + dY * dY).

(** Point.Hash (geom.go:58-60). *)
Definition point_hash (p : point) : Z := (53 + px p) * 53 + py p.

(** type Edge (geom.go:107-109) and NewEdge (118-129). *)
Definition edge := (point * point)%type.
Definition new_edge (a b : point) : edge :=
  if px a >? px b then (b, a)
  else if px a =? px b then (if py a >? py b then (b, a) else (a, b))
  else (a, b).
Definition edge_eq (e f : edge) : bool := peq (fst e) (fst f) && peq (snd e) (snd f).

(* ------------------------------------------------------------------ *)
(** * pointmap.go *)

(** type pointEntry (pointmap.go:110-113): uint16 fields. *)
Record pentry := PE { pe_x : Z; pe_y : Z; pe_count : Z }.
(** type pointMap (pointmap.go:4-6): the table. *)
Definition pmap := list (list pentry).

(** newPointMap (pointmap.go:9-13). *)
Definition new_point_map (size : Z) : option pmap := if size <? 0 then None else Some (repeat [] (Z.to_nat size)).

(** [point.Hash() % len(table)] (pointmap.go:18, 41, 63; polygonmap.go:16, 25):
    Go's remainder, panicking for an empty table. *)
Definition bucket_index {A} (table : list A) (p : point) : option Z :=
  if (length table =? 0)%nat then None else Some (Z.rem (point_hash p) (Z.of_nat (length table))).

Definition bucket {A} (table : list (list A)) (p : point) : option (Z * list A) :=
  match bucket_index table p with
  | None => None
  | Some i => match znth table i with None => None | Some b => Some (i, b) end
  end.

Definition entry_is (p : point) (e : pentry) : bool := (u16 (px p) =? pe_x e) && (u16 (py p) =? pe_y e).

(** The loop of AddPoint over a bucket (pointmap.go:21-26): the bucket with the
    entry's count increased and that count, or [None] if there is no entry. *)
Fixpoint bucket_incr (p : point) (b : list pentry) : option (list pentry * Z) :=
  match b with
  | [] => None
  | e :: t =>
      if entry_is p e then let c := u16 (pe_count e + 1) in Some (PE (pe_x e) (pe_y e) c :: t, c)
      else match bucket_incr p t with None => None | Some (t', c) => Some (e :: t', c) end
  end.

(** pointMap.AddPoint (pointmap.go:16-35). *)
Definition add_point (pm : pmap) (p : point) : option (pmap * Z) :=
  match bucket pm p with
  | None => None
  | Some (i, b) =>
      match bucket_incr p b with
      | Some (b', c) => option_map (fun pm' => (pm', c)) (zset pm i b')
      | None => option_map (fun pm' => (pm', 1)) (zset pm i (b ++ [PE (u16 (px p)) (u16 (py p)) 1]))
      end
  end.

(** Position of the first element satisfying [f]. *)
Fixpoint find_index {A} (f : A -> bool) (l : list A) : option nat :=
  match l with
  | [] => None
  | a :: t => if f a then Some O else option_map S (find_index f t)
  end.

(** [l[i] = l[len(l)-1]; l = l[:len(l)-1]]. *)
Definition swap_delete {A} (i : nat) (l : list A) : list A :=
  match nth_error l (length l - 1) with
  | None => l
  | Some x => firstn (length l - 1) (set_nth i x l)
  end.

(** pointMap.RemovePoint (pointmap.go:39-59). *)
Definition remove_point (pm : pmap) (p : point) : option (pmap * Z) :=
  match bucket pm p with
  | None => None
  | Some (i, b) =>
      match find_index (entry_is p) b with
      | None => None
      | Some k =>
          match nth_error b k with
          | None => None
          | Some e =>
              let c := u16 (pe_count e - 1) in
              if c =? 0 then option_map (fun pm' => (pm', 0)) (zset pm i (swap_delete k b))
              else option_map (fun pm' => (pm', c)) (zset pm i (set_nth k (PE (pe_x e) (pe_y e) c) b))
          end
      end
  end.

(** pointMap.CopiesOf (pointmap.go:61-71). *)
Definition copies_of (pm : pmap) (p : point) : option Z :=
  match bucket pm p with
  | None => None
  | Some (_, b) => Some (match find (entry_is p) b with Some e => pe_count e | None => 0 end)
  end.

(** pointMap.NumPoints (pointmap.go:74-82). *)
Definition pm_num_points (pm : pmap) : Z := fold_left (fun n e => n + pe_count e) (concat pm) 0.

(** pointMap.IterPoints (pointmap.go:98-107): the points passed to the callback. *)
Definition pm_iter (pm : pmap) : list point := map (fun e => Pt (i16 (pe_x e)) (i16 (pe_y e))) (concat pm).

(* ------------------------------------------------------------------ *)
(** * polygonmap.go.  FloatPoint (geom.go:131-133) has the fields of NormPoint. *)

Definition fpoint := npoint.

(** type polygonEntry (polygonmap.go:61-64) and polygonMap (3-5). *)
Definition gentry := (point * list fpoint)%type.
Definition gmap := list (list gentry).

(** newPolygonMap (polygonmap.go:8-12). *)
Definition new_polygon_map (size : Z) : option gmap := if size <? 0 then None else Some (repeat [] (Z.to_nat size)).

(** AddPolygon (polygonmap.go:15-22). *)
Definition add_polygon (gm : gmap) (p : point) (poly : list fpoint) : option gmap :=
  match bucket gm p with None => None | Some (i, b) => zset gm i (b ++ [(p, poly)]) end.

(** RemovePolygon (polygonmap.go:24-36). *)
Definition remove_polygon (gm : gmap) (p : point) : option gmap :=
  match bucket gm p with
  | None => None
  | Some (i, b) =>
      match find_index (fun e => peq (fst e) p) b with
      | None => None
      | Some k => zset gm i (swap_delete k b)
      end
  end.

(** IterPolygons (polygonmap.go:52-58): the polygons passed to the callback. *)
Definition gm_iter (gm : gmap) : list (list fpoint) := map snd (concat gm).

(* ------------------------------------------------------------------ *)
(** * grid.go *)

(** type CircumcircleGrid (grid.go:9-13). *)
Record grid := Grid { g_cells : list (list (list Z)); g_cols : Z; g_rows : Z; g_rowpx : f64; g_colpx : f64 }.

(** NewCircumcircleGrid (grid.go:16-28). *)
Definition new_grid (cols rows w h : Z) : option grid :=
  if (rows <? 0) || ((0 <? rows) && (cols <? 0)) then None else
  Some (Grid (repeat (repeat [] (Z.to_nat cols)) (Z.to_nat rows)) cols rows
             (fdiv (f64_of_Z h) (f64_of_Z rows)) (fdiv (f64_of_Z w) (f64_of_Z cols))).

(** [c.triangles[x][y]] and [c.triangles[x][y] = v]. *)
Definition cell (g : grid) (x y : Z) : option (list Z) :=
  match znth (g_cells g) x with None => None | Some col => znth col y end.
Definition set_cell (g : grid) (x y : Z) (v : list Z) : option grid :=
  match znth (g_cells g) x with
  | None => None
  | Some col =>
      match zset col y v with
      | None => None
      | Some col' =>
          match zset (g_cells g) x col' with
          | None => None
          | Some cs => Some (Grid cs (g_cols g) (g_rows g) (g_rowpx g) (g_colpx g))
          end
      end
  end.

(** The constant 0.001 as a float32. *)
Definition f32_milli : f32 := f32_dy 8589935 (-33).

(** The box of cells of a circumcircle (grid.go:33-53 and 66-86):
    topLeftX, topLeftY, bottomRightX, bottomRightY. *)
Definition circle_box (g : grid) (c : circ) : Z * Z * Z * Z :=
  let radius := f32add (cc_r c) f32_milli in
  let topLeftX := go_int (fdiv (f64_of_f32 (f32sub (cc_x c) radius)) (g_colpx g)) in
  let topLeftY := go_int (fdiv (f64_of_f32 (f32sub (cc_y c) radius)) (g_rowpx g)) in
  let bottomRightX := go_int (fceil (fdiv (f64_of_f32 (f32add (cc_x c) radius)) (g_colpx g))) in
  let bottomRightY := go_int (fceil (fdiv (f64_of_f32 (f32add (cc_y c) radius)) (g_rowpx g))) in
  (if topLeftX <? 0 then 0 else topLeftX, if topLeftY <? 0 then 0 else topLeftY,
   if bottomRightX >? g_cols g then g_cols g else bottomRightX,
   if bottomRightY >? g_rows g then g_rows g else bottomRightY).

(** The cells visited by the two loops over the box, in order. [c.triangles[x]]
    is read even if the inner loop is empty; since x < cols <= len holds for
    every grid with rows >= cols this read cannot panic there. *)
Definition box_cells (g : grid) (c : circ) : list (Z * Z) :=
  let '(x0, y0, x1, y1) := circle_box g c in
  flat_map (fun x => map (fun y => (x, y)) (zfor y0 y1)) (zfor x0 x1).

(** Apply [f] to the cell (x,y). *)
Definition on_cell (f : list Z -> list Z) (g : grid) (xy : Z * Z) : option grid :=
  match cell g (fst xy) (snd xy) with None => None | Some l => set_cell g (fst xy) (snd xy) (f l) end.

(** CircumcircleGrid.AddTriangle (grid.go:31-61). *)
Definition grid_add (g : grid) (t : dtri) (index : Z) : option grid :=
  foldM (on_cell (fun l => l ++ [index])) (box_cells g (d_circ t)) g.

(** The inner loop of RemoveTriangle on one cell (grid.go:91-99). *)
Definition delete_index (index : Z) (l : list Z) : list Z :=
  match find_index (Z.eqb index) l with None => l | Some i => swap_delete i l end.

(** CircumcircleGrid.RemoveTriangle (grid.go:64-102). *)
Definition grid_remove (g : grid) (t : dtri) (index : Z) : option grid :=
  foldM (on_cell (delete_index index)) (box_cells g (d_circ t)) g.

(** The cell a point falls into (grid.go:107-116, 138-147, 171-180, 201-210, 231-240). *)
Definition point_cell (g : grid) (p : point) : Z * Z :=
  let x := go_int (ffloor (fdiv (f64_of_Z (px p)) (g_colpx g))) in
  let y := go_int (ffloor (fdiv (f64_of_Z (py p)) (g_rowpx g))) in
  (if x =? g_cols g then g_cols g - 1 else x, if y =? g_rows g then g_rows g - 1 else y).

Definition group (g : grid) (p : point) : option (list Z) :=
  let (x, y) := point_cell g p in cell g x y.

(** [tri.A.X == -1] *)
Definition is_freed (t : dtri) : bool := px (d_a t) =? -1.

(** CircumcircleGrid.HasPoint (grid.go:105-133). *)
Fixpoint has_point_loop (tris : list dtri) (p : point) (l : list Z) : option bool :=
  match l with
  | [] => Some false
  | i :: t =>
      match znth tris i with
      | None => None
      | Some tri => if is_freed tri then None else if has_vertex tri p then Some true else has_point_loop tris p t
      end
  end.
Definition grid_has_point (g : grid) (p : point) (tris : list dtri) : option bool :=
  match group g p with None => None | Some l => has_point_loop tris p l end.

(** The test of RemoveCircumcirclesThatContain and IterCircumcirclesThatContain. *)
Definition contains_point (t : dtri) (p : point) : bool :=
  in_circle (px (d_a t)) (py (d_a t)) (px (d_b t)) (py (d_b t)) (px (d_c t)) (py (d_c t)) (px p) (py p) >=? 0.

(** IterCircumcirclesThatContain (grid.go:169-196): the indices passed to the callback. *)
Fixpoint iter_contain_loop (tris : list dtri) (p : point) (l : list Z) : option (list Z) :=
  match l with
  | [] => Some []
  | i :: t =>
      match znth tris i with
      | None => None
      | Some tri =>
          if is_freed tri then None else
          match iter_contain_loop tris p t with
          | None => None
          | Some r => Some (if contains_point tri p then i :: r else r)
          end
      end
  end.
Definition iter_circles_containing (g : grid) (p : point) (tris : list dtri) : option (list Z) :=
  match group g p with None => None | Some l => iter_contain_loop tris p l end.

(** IterThatHasVertex (grid.go:229-253): the indices passed to the callback. *)
Fixpoint iter_vertex_loop (tris : list dtri) (p : point) (l : list Z) : option (list Z) :=
  match l with
  | [] => Some []
  | i :: t =>
      match znth tris i with
      | None => None
      | Some tri =>
          match iter_vertex_loop tris p t with
          | None => None
          | Some r => Some (if has_vertex tri p then i :: r else r)
          end
      end
  end.
Definition iter_with_vertex (g : grid) (p : point) (tris : list dtri) : option (list Z) :=
  match group g p with None => None | Some l => iter_vertex_loop tris p l end.

(* ------------------------------------------------------------------ *)
(** * delaunay.go *)

(** type Delaunay (delaunay.go:11-30), without the scratch buffers. *)
Record delaunay := D {
  d_tris : list dtri;
  d_grid : grid;
  d_pmap : pmap;
  d_free : list Z;
  d_super : dtri;
  d_num : Z;
  d_unique : Z }.

(** addTriangle (delaunay.go:235-249) on the triangles, grid and free list.
    [freeTriangles] is a stack growing at the end of the slice; the model keeps it
    reversed, so its head is the last element. *)
Definition add_triangle (tris : list dtri) (g : grid) (free : list Z) (t : dtri)
  : option (list dtri * grid * list Z) :=
  match free with
  | index :: free' =>
      match zset tris index t with
      | None => None
      | Some tris' => match grid_add g t index with None => None | Some g' => Some (tris', g', free') end
      end
  | [] =>
      match grid_add g t (u16 (Z.of_nat (length tris))) with
      | None => None
      | Some g' => Some (tris ++ [t], g', free)
      end
  end.

(** markFreeTriangle (delaunay.go:253-256). *)
Definition mark_free (tris : list dtri) (free : list Z) (i : Z) : option (list dtri * list Z) :=
  match znth tris i with
  | None => None
  | Some t => option_map (fun tris' => (tris', i :: free)) (zset tris i (DT (Pt (-1) (py (d_a t))) (d_b t) (d_c t) (d_circ t)))
  end.

(** addEdge (delaunay.go:209-222). *)
Definition add_edge (es : list edge) (e : edge) : list edge :=
  match find_index (edge_eq e) es with
  | Some i => swap_delete i es
  | None => es ++ [e]
  end.

(** The three addEdge calls for a triangle (delaunay.go:63-65). *)
Definition add_tri_edges (es : list edge) (t : dtri) : list edge :=
  add_edge (add_edge (add_edge es (new_edge (d_a t) (d_b t))) (new_edge (d_b t) (d_c t))) (new_edge (d_c t) (d_a t)).

(** RemoveCircumcirclesThatContain (grid.go:136-166) with the callback of Insert
    (delaunay.go:60-68).  [n] is size - i, which decreases by one in every
    iteration.  The slice [group] shares its array with the cell, so group[i]
    with i < size is the i-th element of the current cell (removals shorten the
    cell by at most one each, as they do [size]). *)
Fixpoint remove_circles_loop (n i : nat) (p : point) (xy : Z * Z) (tris : list dtri) (g : grid) (free : list Z) (es : list edge)
  : option (list dtri * grid * list Z * list edge) :=
  match n with
  | O => Some (tris, g, free, es)
  | S n' =>
      match cell g (fst xy) (snd xy) with
      | None => None
      | Some l =>
          match nth_error l i with
          | None => None
          | Some t =>
              match znth tris t with
              | None => None
              | Some tri =>
                  if is_freed tri then None
                  else if contains_point tri p then
                    match mark_free tris free t with
                    | None => None
                    | Some (tris', free') =>
                        match grid_remove g tri t with
                        | None => None
                        | Some g' => remove_circles_loop n' i p xy tris' g' free' (add_tri_edges es tri)
                        end
                    end
                  else remove_circles_loop n' (S i) p xy tris g free es
              end
          end
      end
  end.

(** The loop connecting the boundary to the point (delaunay.go:71-79). *)
Definition connect (p : point) (st : list dtri * grid * list Z) (e : edge) : option (list dtri * grid * list Z) :=
  let '(tris, g, free) := st in
  let A := i16 (px (snd e) - px (fst e)) in
  let B := i16 (py (snd e) - py (fst e)) in
  let G := i64 (A * i16 (py p - py (snd e)) - B * i16 (px p - px (snd e))) in
  if G =? 0 then Some st else add_triangle tris g free (new_triangle (fst e) (snd e) p).

(** Delaunay.Insert (delaunay.go:50-82). *)
Definition insert (d : delaunay) (p : point) : option delaunay :=
  match add_point (d_pmap d) p with
  | None => None
  | Some (pm, c) =>
      let unique := if c =? 1 then d_unique d + 1 else d_unique d in
      match group (d_grid d) p with
      | None => None
      | Some l =>
          match remove_circles_loop (length l) 0 p (point_cell (d_grid d) p) (d_tris d) (d_grid d) (d_free d) [] with
          | None => None
          | Some (tris, g, free, es) =>
              match foldM (connect p) es (tris, g, free) with
              | None => None
              | Some (tris', g', free') => Some (D tris' g' pm free' (d_super d) (d_num d + 1) unique)
              end
          end
      end
  end.

(** NewDelaunay (delaunay.go:33-46). *)
Definition new_delaunay (w h : Z) : option delaunay :=
  let s := new_super_triangle w h in
  match new_grid 10 10 w h, new_point_map 100 with
  | Some g, Some pm =>
      match add_triangle [] g [] s with
      | None => None
      | Some (tris, g', free) => Some (D tris g' pm free s 0 0)
      end
  | _, _ => None
  end.

(** The closure addPoint of Remove (delaunay.go:95-110). *)
Definition hull_add (p : point) (hull : list point) (po : point) : list point :=
  if peq po p then hull else if existsb (peq po) hull then hull else hull ++ [po].

(** RemoveThatHasVertex (grid.go:199-226) with the callback of Remove
    (delaunay.go:113-121); same loop structure as above. *)
Fixpoint remove_vertex_loop (n i : nat) (p : point) (xy : Z * Z) (tris : list dtri) (g : grid) (free : list Z) (hull : list point)
  : option (list dtri * grid * list Z * list point) :=
  match n with
  | O => Some (tris, g, free, hull)
  | S n' =>
      match cell g (fst xy) (snd xy) with
      | None => None
      | Some l =>
          match nth_error l i with
          | None => None
          | Some t =>
              match znth tris t with
              | None => None
              | Some tri =>
                  if has_vertex tri p then
                    match mark_free tris free t with
                    | None => None
                    | Some (tris', free') =>
                        match grid_remove g tri t with
                        | None => None
                        | Some g' =>
                            remove_vertex_loop n' i p xy tris' g' free'
                              (hull_add p (hull_add p (hull_add p hull (d_a tri)) (d_b tri)) (d_c tri))
                        end
                    end
                  else remove_vertex_loop n' (S i) p xy tris g free hull
              end
          end
      end
  end.

(** The comparison passed to sort.Slice (delaunay.go:124-150) with a = hull[j],
    b = hull[i]; [None] is its panic.  Note that a.X-p.X is an int16. *)
Definition hull_less (p b a : point) : option bool :=
  let ax := i16 (px a - px p) in
  let ay := i16 (py a - py p) in
  let bx := i16 (px b - px p) in
  let by_ := i16 (py b - py p) in
  if (ax >=? 0) && (bx <? 0) then Some true
  else if (ax <? 0) && (bx >=? 0) then Some false
  else if (ax =? 0) && (bx =? 0) then
    Some (if (ay >=? 0) || (by_ >=? 0) then py a >? py b else py b >? py a)
  else
    let det := ax * by_ - bx * ay in
    if det <? 0 then Some true else if det >? 0 then Some false else None.

(** type ear (geom.go:96-99). *)
Record ear := Ear { e_a : point; e_b : point; e_c : point; e_score : f64 }.
Definition mk_ear (p a b c : point) : ear := Ear a b c (calculate_score a b c p).

(** The initial ears (delaunay.go:158-162). *)
Definition init_ears (p : point) (hull : list point) : list ear :=
  map (fun i => let at_ k := nth ((i + k) mod length hull) hull (Pt 0 0) in mk_ear p (at_ 0%nat) (at_ 1%nat) (at_ 2%nat)) (seq 0 (length hull)).

(** The search for the lowest score (delaunay.go:166-176): index of the ear. *)
Fixpoint lowest (i : nat) (best : f64) (index : nat) (es : list ear) : nat :=
  match es with
  | [] => index
  | e :: t => if flt (e_score e) best then lowest (S i) (e_score e) i t else lowest (S i) best index t
  end.

(** One iteration of the ear loop after the search (delaunay.go:179-201): the
    ears afterwards, given index of the chosen one. *)
Definition cut_ear (p : point) (es : list ear) (index : nat) : list ear :=
  let n := length es in
  let e := nth index es (Ear p p p f0) in
  let before := if (index =? 0)%nat then (n - 1)%nat else (index - 1)%nat in
  let after := ((index + 1) mod n)%nat in
  let eb := nth before es e in
  let es1 := set_nth before (mk_ear p (e_a eb) (e_b eb) (e_c e)) es in
  let ea := nth after es1 e in
  let es2 := set_nth after (mk_ear p (e_a e) (e_b ea) (e_c ea)) es1 in
  firstn index es2 ++ skipn (S index) es2.

(** The ear loop (delaunay.go:164-202) and the last triangle (line 205): the
    triangles passed to addTriangle, in order.  [n] bounds the iterations; each
    shortens the list by one, so [length es] is enough. *)
Fixpoint ear_loop (n : nat) (p : point) (es : list ear) : option (list (point * point * point)) :=
  match n with
  | O => None
  | S n' =>
      if (3 <? length es)%nat then
        let index := lowest 0 max_float64 0 es in
        match nth_error es index with
        | None => None
        | Some e => option_map (cons (e_a e, e_b e, e_c e)) (ear_loop n' p (cut_ear p es index))
        end
      else match es with [] => None | e :: _ => Some [(e_a e, e_b e, e_c e)] end
  end.

Definition add_triangles (st : list dtri * grid * list Z) (l : list (point * point * point)) :=
  foldM (fun st abc => let '(tris, g, free) := st in let '(a, b, c) := abc in add_triangle tris g free (new_triangle a b c)) l st.

(** The first part of Remove for the last copy of a point (delaunay.go:92-121):
    state and unsorted hull. *)
Definition remove_star (d : delaunay) (p : point) : option (list dtri * grid * list Z * list point) :=
  match group (d_grid d) p with
  | None => None
  | Some l => remove_vertex_loop (length l) 0 p (point_cell (d_grid d) p) (d_tris d) (d_grid d) (d_free d) []
  end.

(** Delaunay.Remove (delaunay.go:86-206).  [sort hull] is what sort.Slice leaves in
    d.hull, [None] if a comparison panics. *)
Definition remove (sort : list point -> option (list point)) (d : delaunay) (p : point) : option delaunay :=
  match remove_point (d_pmap d) p with
  | None => None
  | Some (pm, c) =>
      if negb (c =? 0) then Some (D (d_tris d) (d_grid d) pm (d_free d) (d_super d) (d_num d - 1) (d_unique d))
      else
        match remove_star d p with
        | None => None
        | Some (tris, g, free, hull) =>
            match sort hull with
            | None => None
            | Some hull' =>
                match ear_loop (S (length hull')) p (init_ears p hull') with
                | None => None
                | Some l =>
                    match add_triangles (tris, g, free) l with
                    | None => None
                    | Some (tris', g', free') => Some (D tris' g' pm free' (d_super d) (d_num d - 1) (d_unique d - 1))
                    end
                end
            end
        end
  end.

(** What sort.Slice does for less than 12 elements with the comparison above
    (sort/zsortfunc.go insertionSort_func of the Go library): insertion sort from
    the left, each new element moved left while less than its predecessor. *)
Fixpoint ins_back (p x : point) (rev_sorted : list point) : option (list point) :=
  match rev_sorted with
  | [] => Some [x]
  | y :: t =>
      match hull_less p x y with
      | None => None
      | Some true => option_map (cons y) (ins_back p x t)
      | Some false => Some (x :: y :: t)
      end
  end.
Definition insertion_sort (p : point) (l : list point) : option (list point) :=
  option_map (@rev point) (foldM (fun acc x => ins_back p x acc) l []).

(** IterTriangles (delaunay.go:259-272): the triangles passed to the callback. *)
Definition touches_super (d : delaunay) (t : dtri) : bool :=
  has_vertex t (d_a (d_super d)) || has_vertex t (d_b (d_super d)) || has_vertex t (d_c (d_super d)).
Definition iter_triangles (d : delaunay) : list dtri :=
  filter (fun t => negb (is_freed t) && negb (touches_super d t)) (d_tris d).

(** NumPoints (delaunay.go:275-277). *)
Definition num_points (d : delaunay) : Z := d_num d.

(** HasPoint (delaunay.go:307-309). *)
Definition has_point (d : delaunay) (p : point) : option bool := grid_has_point (d_grid d) p (d_tris d).

(** GetClosestTo (delaunay.go:312-342). *)
Definition closer (p : point) (acc : point * Z) (q : point) : point * Z :=
  let d := dist_sq p q in if d <? snd acc then (q, d) else acc.
Definition get_closest_to (d : delaunay) (p : point) : point :=
  fst (fold_left (fun acc t => if is_freed t then acc else closer p (closer p (closer p acc (d_a t)) (d_b t)) (d_c t))
                 (d_tris d) (Pt 0 0, 2 ^ 63 - 1)).
