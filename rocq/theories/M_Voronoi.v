(** Model of triangulation/incrdelaunay/voronoi.go and of package polygonation.

    Voronoi and IVoronoi.processPoint contain the same computation of a cell; it is
    modelled once ([cell_of]).  The scratch slices points, newPolygon and
    pointsToUpdate are local values: they are reset before each use.  The polygons
    put into the polygon map are fresh slices and are never written again, so they
    are plain lists. *)
From Coq Require Import ZArith List Bool.
From Flocq Require Import IEEE754.BinarySingleNaN.
From Verif Require Import GoNum M_Norm M_Slice M_Geom M_Image M_Raster M_Delaunay.
Import ListNotations.
Open Scope Z_scope.

(** const epsilon = 0.0001 (voronoi.go:492) as a float64. *)
Definition epsilon : f64 := fdiv f1 (f64_of_Z 10000).

(** epsilonEquals (voronoi.go:494-496). *)
Definition epsilon_equals (a b : f64) : bool := flt (fabs (fsub a b)) epsilon.

(** segmentsIntersect (voronoi.go:498-515); [None] is the result (0, 0, false). *)
Definition segments_intersect (p0_x p0_y p1_x p1_y p2_x p2_y p3_x p3_y : f64) : option fpoint :=
  let s1_x := fsub p1_x p0_x in
  let s1_y := fsub p1_y p0_y in
  let s2_x := fsub p3_x p2_x in
  let s2_y := fsub p3_y p2_y in
  let s := fdiv (fadd (fmul (fopp s1_y) (fsub p0_x p2_x)) (fmul s1_x (fsub p0_y p2_y)))
                (fadd (fmul (fopp s2_x) s1_y) (fmul s1_x s2_y)) in
  let t := fdiv (fsub (fmul s2_x (fsub p0_y p2_y)) (fmul s2_y (fsub p0_x p2_x)))
                (fadd (fmul (fopp s2_x) s1_y) (fmul s1_x s2_y)) in
  if fle f0 s && fle s f1 && fle f0 t && fle t f1
  then Some (NP (fadd p0_x (fmul t s1_x)) (fadd p0_y (fmul t s1_y)))
  else None.

(** outside (voronoi.go:517-519). *)
Definition outside (p : fpoint) (w h : Z) : bool :=
  flt (nx p) (fopp epsilon) || flt (ny p) (fopp epsilon)
  || flt (fadd (f64_of_Z w) epsilon) (nx p) || flt (fadd (f64_of_Z h) epsilon) (ny p).

(** polygonPointIntersect (voronoi.go:521-563), from index [i] on ([n] points left). *)
Fixpoint point_intersect_from (polygon : list fpoint) (point : fpoint) (pos neg i : Z) (n : nat) : bool :=
  match n with
  | O => true
  | S n' =>
      match znth polygon i, znth polygon ((i + 1) mod Z.of_nat (length polygon)) with
      | Some p1, Some p2 =>
          if npeq p1 point then true else
          let d := fsub (fmul (fsub (nx point) (nx p1)) (fsub (ny p2) (ny p1)))
                        (fmul (fsub (ny point) (ny p1)) (fsub (nx p2) (nx p1))) in
          let pos := if flt f0 d then pos + 1 else pos in
          let neg := if flt d f0 then neg + 1 else neg in
          if (0 <? pos) && (0 <? neg) then false else point_intersect_from polygon point pos neg (i + 1) n'
      | _, _ => false
      end
  end.
Definition polygon_point_intersect (polygon : list fpoint) (point : fpoint) : bool :=
  point_intersect_from polygon point 0 0 0 (length polygon).

(** The comparisons passed to sort.Slice (voronoi.go:134-160, 350-376 and 237-263,
    453-479), with b = points[i] and a = points[j].  [None]: det is neither below nor
    above 0; there the first comparison panics (lines 159, 375), the second returns
    false (262, 478). *)
Definition around (center b a : fpoint) : option bool :=
  let ax := fsub (nx a) (nx center) in
  let ay := fsub (ny a) (ny center) in
  let bx := fsub (nx b) (nx center) in
  let by_ := fsub (ny b) (ny center) in
  if fle f0 ax && flt bx f0 then Some true
  else if flt ax f0 && fle f0 bx then Some false
  else if feq ax f0 && feq bx f0 then
    Some (if fle f0 ay || fle f0 by_ then flt (ny b) (ny a) else flt (ny a) (ny b))
  else
    let det := fsub (fmul ax by_) (fmul bx ay) in
    if flt det f0 then Some true else if flt f0 det then Some false else None.
Definition around_second (center b a : fpoint) : option bool :=
  match around center b a with Some r => Some r | None => Some false end.

(** The var edges (voronoi.go:304-309), scaled to the image
    (e0, e1 at 178-185 and 394-401; corner at 217-220 and 433-436). *)
Definition unit_edges : list (fpoint * fpoint) :=
  [(NP f0 f0, NP f1 f0); (NP f1 f0, NP f1 f1); (NP f1 f1, NP f0 f1); (NP f0 f1, NP f0 f0)].
Definition scale (p : fpoint) (w h : Z) : fpoint := NP (fmul (nx p) (f64_of_Z w)) (fmul (ny p) (f64_of_Z h)).
Definition edges (w h : Z) : list (fpoint * fpoint) :=
  map (fun e => (scale (fst e) w h, scale (snd e) w h)) unit_edges.

(** The body of the loop over the edges (voronoi.go:177-208, 393-424), for the side
    from [a] to [b] and edge [e]: what is appended to newPolygon, and whether
    intersections[j] is increased. *)
Definition clip_edge (a b : fpoint) (e : fpoint * fpoint) : list fpoint * bool :=
  let (e0, e1) := e in
  match segments_intersect (nx e0) (ny e0) (nx e1) (ny e1) (nx a) (ny a) (nx b) (ny b) with
  | None => ([], false)
  | Some new =>
      if negb (epsilon_equals (nx new) (nx a) && epsilon_equals (ny new) (ny a))
         && negb (epsilon_equals (nx new) (nx b) && epsilon_equals (ny new) (ny b))
      then ((if negb (npeq new e0) && negb (npeq new e1) then [new] else []), true)
      else ([], false)
  end.

(** The loop over the sides (voronoi.go:167-210, 383-426): newPolygon, and for every
    edge the number of intersections (which the code starts at -1). *)
Definition clip_side (w h : Z) (st : list fpoint * list Z) (ab : fpoint * fpoint) : list fpoint * list Z :=
  let (poly, ints) := st in
  let (a, b) := ab in
  let poly := if outside a w h then poly else poly ++ [a] in
  let r := map (clip_edge a b) (edges w h) in
  (poly ++ concat (map fst r), map (fun ix : Z * (list fpoint * bool) => if snd (snd ix) then fst ix + 1 else fst ix) (combine ints r)).

(** The pairs (points[i], points[(i+1)%len(points)]). *)
Definition sides (points : list fpoint) : list (fpoint * fpoint) :=
  match points with [] => [] | p :: t => combine points (t ++ [p]) end.

(** The corners (voronoi.go:212-225, 428-441): corner j lies between edges j and j+1. *)
Definition corners_of (w h : Z) (points : list fpoint) (ints : list Z) : list fpoint :=
  match ints with
  | [] => []
  | i0 :: t =>
      concat (map (fun x => let '(e, (i, j)) := x in
                            if negb (i =? -1) && negb (j =? -1) && polygon_point_intersect points (snd e) then [snd e] else [])
                  (combine (edges w h) (combine ints (t ++ [i0]))))
  end.

(** newPolygon before its sort (voronoi.go:163-225, 379-441). *)
Definition clip_polygon (w h : Z) (points : list fpoint) : list fpoint :=
  let (poly, ints) := fold_left (clip_side w h) (sides points) ([], [-1; -1; -1; -1]) in
  poly ++ corners_of w h points ints.

(** The center of newPolygon (voronoi.go:227-235, 443-451). *)
Definition mean (l : list fpoint) : fpoint :=
  let s := fold_left (fun c p => NP (fadd (nx c) (nx p)) (fadd (ny c) (ny p))) l (NP f0 f0) in
  let n := f64_of_Z (Z.of_nat (length l)) in
  NP (fdiv (nx s) n) (fdiv (ny s) n).

(** What sort.Slice does: the comparison (by elements, [None] is its panic) and the
    slice; [None] is a panic. *)
Definition sorter := (fpoint -> fpoint -> option bool) -> list fpoint -> option (list fpoint).

(** The circumcentres collected for a point (voronoi.go:105-127, 321-343): different
    centres in the order of their first occurrence, and whether one lies outside. *)
Definition centre_of (t : dtri) : fpoint := NP (f64_of_f32 (cc_x (d_circ t))) (f64_of_f32 (cc_y (d_circ t))).
Definition collect (w h : Z) (st : list fpoint * bool) (new : fpoint) : list fpoint * bool :=
  let (points, clip) := st in
  (if existsb (fun p => npeq p new) points then points else points ++ [new], clip || outside new w h).
Definition centres (d : delaunay) (p : point) : option (list fpoint) :=
  match iter_with_vertex (d_grid d) p (d_tris d) with
  | None => None
  | Some l => mapM (fun i => option_map centre_of (znth (d_tris d) i)) l
  end.

(** The cell of a point (voronoi.go:99-278, 317-489). *)
Definition cell_from (srt : sorter) (w h : Z) (p : point) (cs : list fpoint) : option (list fpoint) :=
  let (points, clip) := fold_left (collect w h) cs ([], false) in
  match srt (around (NP (f64_of_Z (px p)) (f64_of_Z (py p)))) points with
  | None => None
  | Some points =>
      if clip then let poly := clip_polygon w h points in srt (around_second (mean poly)) poly
      else Some points
  end.
Definition cell_of (srt : sorter) (d : delaunay) (w h : Z) (p : point) : option (list fpoint) :=
  match centres d p with None => None | Some cs => cell_from srt w h p cs end.

Definition nonempty {A} (l : list A) : bool := match l with [] => false | _ => true end.

(** Voronoi (voronoi.go:311-490): the polygons passed to the callback. *)
Definition voronoi (srt : sorter) (d : delaunay) (w h : Z) : option (list (list fpoint)) :=
  option_map (filter nonempty) (mapM (cell_of srt d w h) (pm_iter (d_pmap d))).

(** The callback of Polygonate (polygonation/polygonate.go:23-38). *)
Definition round_point (p : fpoint) : point := Pt (go_int (fround (nx p))) (go_int (fround (ny p))).
Definition push_point (poly : list point) (new : point) : list point :=
  match poly with
  | [] => [new]
  | _ => if peq (last poly new) new then poly else poly ++ [new]
  end.
Definition round_polygon (l : list fpoint) : list point := fold_left push_point (map round_point l) [].

(** Polygonate (polygonation/polygonate.go:10-41). *)
Definition polygonate (srt : sorter) (pts : list npoint) (w h : Z) : option (list (list point)) :=
  match new_delaunay w h with
  | None => None
  | Some d0 =>
      match foldM (fun d p => insert d (polygonate_point p w h)) pts d0 with
      | None => None
      | Some d => option_map (map round_polygon) (voronoi srt d w h)
      end
  end.

(** type IVoronoi (voronoi.go:18-27) and NewVoronoi (voronoi.go:8-16). *)
Record ivor := IV { v_d : delaunay; v_w : Z; v_h : Z; v_map : gmap }.
Definition new_voronoi (w h : Z) : option ivor :=
  match new_delaunay w h, new_polygon_map 6 with
  | Some d, Some g => Some (IV d w h g)
  | _, _ => None
  end.

(** addPointToUpdate (voronoi.go:280-296). *)
Definition to_update (super : dtri) (l : list point) (p : point) : list point :=
  if has_vertex super p then l else if existsb (fun q => peq q p) l then l else l ++ [p].

(** The callback that collects the corners of triangle [i] (voronoi.go:38-43, 68-74). *)
Definition update_corners (super : dtri) (tris : list dtri) (l : list point) (i : Z) : option (list point) :=
  match znth tris i with
  | None => None
  | Some t => Some (to_update super (to_update super (to_update super l (d_a t)) (d_b t)) (d_c t))
  end.

(** IVoronoi.processPoint (voronoi.go:99-278). *)
Definition process_point (srt : sorter) (w h : Z) (d : delaunay) (gm : gmap) (p : point) : option gmap :=
  match cell_of srt d w h p with None => None | Some poly => add_polygon gm p poly end.

(** IVoronoi.Insert (voronoi.go:29-57). *)
Definition iv_insert (srt : sorter) (v : ivor) (p : point) : option ivor :=
  match copies_of (d_pmap (v_d v)) p with
  | None => None
  | Some c =>
      if 0 <? c then option_map (fun d => IV d (v_w v) (v_h v) (v_map v)) (insert (v_d v) p)
      else
        match iter_circles_containing (d_grid (v_d v)) p (d_tris (v_d v)) with
        | None => None
        | Some l =>
            match foldM (update_corners (d_super (v_d v)) (d_tris (v_d v))) l [] with
            | None => None
            | Some upd =>
                match insert (v_d v) p with
                | None => None
                | Some d =>
                    match foldM remove_polygon upd (v_map v) with
                    | None => None
                    | Some gm =>
                        option_map (IV d (v_w v) (v_h v))
                          (foldM (process_point srt (v_w v) (v_h v) d) (to_update (d_super d) upd p) gm)
                    end
                end
            end
        end
  end.

(** IVoronoi.Remove (voronoi.go:59-89); [hsrt p] is the sort of the hull in
    Delaunay.Remove. *)
Definition iv_remove (srt : sorter) (hsrt : point -> list point -> option (list point)) (v : ivor) (p : point) : option ivor :=
  match copies_of (d_pmap (v_d v)) p with
  | None => None
  | Some c =>
      if 1 <? c then option_map (fun d => IV d (v_w v) (v_h v) (v_map v)) (remove (hsrt p) (v_d v) p)
      else
        match iter_with_vertex (d_grid (v_d v)) p (d_tris (v_d v)) with
        | None => None
        | Some l =>
            match foldM (update_corners (d_super (v_d v)) (d_tris (v_d v))) l [] with
            | None => None
            | Some upd =>
                match remove (hsrt p) (v_d v) p with
                | None => None
                | Some d =>
                    match foldM remove_polygon upd (v_map v) with
                    | None => None
                    | Some gm =>
                        option_map (IV d (v_w v) (v_h v))
                          (foldM (process_point srt (v_w v) (v_h v) d) (filter (fun q => negb (peq q p)) upd) gm)
                    end
                end
            end
        end
  end.

(** IVoronoi.IterPolygons (voronoi.go:91-97): the polygons passed to the callback. *)
Definition iv_iter (v : ivor) : list (list fpoint) := filter nonempty (gm_iter (v_map v)).

(** What sort.Slice does for at most 6 elements in every version of the Go library
    (sort/zfuncversion.go quickSort_func, sort/zsortfunc.go insertionSort_func):
    insertion sort from the left. *)
Fixpoint insert_back {A} (less : A -> A -> option bool) (x : A) (rev_sorted : list A) : option (list A) :=
  match rev_sorted with
  | [] => Some [x]
  | y :: t =>
      match less x y with
      | None => None
      | Some true => option_map (cons y) (insert_back less x t)
      | Some false => Some (x :: y :: t)
      end
  end.
Definition slice_sort {A} (less : A -> A -> option bool) (l : list A) : option (list A) :=
  option_map (@rev A) (foldM (fun acc x => insert_back less x acc) l []).
