(** Model of fitness/polygons.go, of PolygonCacheData in fitness/cache.go, of
    IVoronoi.Set and polygonMap.Set, and of the parallel evaluator
    (algorithm/evaluator/parallel.go) over these functions.

    The evaluator is the one of M_Fitness once more, with the functions of this file: Go's
    evaluator works on any fitness.CacheFunction.  [srt] is sort.Slice on the vertices of
    cells, [hsrt p] sort.Slice on the hull of a removed point p. *)
From Coq Require Import ZArith List Bool.
From Flocq Require Import IEEE754.BinarySingleNaN.
From Verif Require Import GoNum M_Norm M_Slice M_Geom M_Image M_Raster M_Delaunay M_Algo M_Fitness M_Voronoi.
Import ListNotations.
Open Scope Z_scope.

(** IVoronoi.Set (voronoi.go:298-301) with Delaunay.Set and polygonMap.Set
    (polygonmap.go:39-50) as assignments of values; width and height are not copied. *)
Definition iv_set (v o : ivor) : option ivor :=
  match d_set (v_d v) (v_d o), table_set (v_map v) (v_map o) with
  | Some d, Some gm => Some (IV d (v_w v) (v_h v) gm)
  | _, _ => None
  end.

(* ------------------------------------------------------------------ *)
(** * fitness/cache.go *)

(** type PolygonCacheData (cache.go:57-61). *)
Record pentry := PEntry { q_coords : list Z; q_fit : f64; q_hash : Z }.

(** PolygonCacheData.Equals (cache.go:76-87). *)
Fixpoint same_coords (a b : list Z) : bool :=
  match a, b with
  | [], [] => true
  | x :: a, y :: b => (x =? y) && same_coords a b
  | _, _ => false
  end.

(** PolygonCacheData.Hash (cache.go:91-100); uint64 of an int16. *)
Definition poly_hash (coords : list Z) : Z := fold_left (fun hash c => u64 (hash * 97 + u64 c)) coords 1.

(* ------------------------------------------------------------------ *)
(** * fitness/polygons.go *)

(** The polygon with rounded vertices, and polygonData (polygons.go:78-91). *)
Definition fast_polygon (l : list fpoint) : list point := fold_left push_point (map (fun p => Pt (fast_round (nx p)) (fast_round (ny p))) l) [].
Definition poly_coords (poly : list point) : list Z := flat_map (fun p => [i16 (px p); i16 (py p)]) poly.

(** The calculation on a miss (polygons.go:105-135); the callbacks are those of the
    triangles ([on_event]). *)
Definition poly_diff (im : fimg) (poly : list point) : option f64 :=
  match dda_polygon_blocks (fi_fuel im) poly (fi_bs im) with
  | None => None
  | Some ev => option_map diff_of (foldM (on_event im) ev sums0)
  end.

(** The state of the loop over the polygons: difference, nextCache, and the array behind
    g.TriangleCache; [alias] as in M_Fitness. *)
Record pstate := PS { ps_diff : f64; ps_next : list pentry; ps_tris : list (option pentry) }.

(** One iteration (polygons.go:76-150). *)
Definition poly_step (im : fimg) (alias : bool) (s : pstate) (l : list fpoint) : option pstate :=
  let poly := fast_polygon l in
  let coords := poly_coords poly in
  let index0 := cache_index (Z.of_nat (length (ps_tris s))) (poly_hash coords) in
  match znth (ps_tris s) index0 with
  | None => None
  | Some data =>
      let miss := match poly_diff im poly with None => None | Some diff => Some (PEntry coords diff index0) end in
      match (match data with
             | None => miss
             | Some e => if same_coords (q_coords e) coords then Some e else miss end) with
      | None => None
      | Some e =>
          Some (PS (fadd (ps_diff s) (q_fit e)) (ps_next s ++ [e])
                   (if alias then set_nth (length (ps_next s)) (Some e) (ps_tris s) else ps_tris s))
      end
  end.

(** Calculate from line 56 on: the fitness and the new nextCache (polygons.go:56-154). *)
Definition calc_poly (im : fimg) (alias : bool) (tris : list (option pentry)) (v : ivor) : option (f64 * list pentry) :=
  option_map (fun s => (fsub f1 (fdiv (ps_diff s) (fi_max im)), ps_next s)) (foldM (poly_step im alias) (iv_iter v) (PS f0 [] tris)).

(** The first part of Calculate (polygons.go:31-54): the diagram evaluated. *)
Definition next_vor (im : fimg) (srt : sorter) (hsrt : point -> list point -> option (list point)) (tri base : option ivor)
    (pts : list npoint) (muts : list mut) : option ivor :=
  match tri with
  | None => match new_voronoi (fi_w im) (fi_h im) with None => None | Some v => foldM (fun v p => iv_insert srt v (mut_point im p)) pts v end
  | Some v =>
      match base with
      | None => Some v
      | Some o =>
          match iv_set v o with
          | None => None
          | Some v1 =>
              match foldM (fun v m => iv_remove srt hsrt v (mut_point im (m_old m))) muts v1 with
              | None => None
              | Some v2 => foldM (fun v m => iv_insert srt v (mut_point im (m_new m))) muts v2
              end
          end
      end
  end.

(** The fields TriangleCache and nextCache (polygons.go:20-21), as in M_Fitness. *)
Inductive pcache := QInit | QOwn (l : list pentry) | QArr (k : nat).

(** A *polygonsImageFunction (polygons.go:10-28); PolygonsImageFunctions makes the data of
    the image as for triangles (polygons.go:169-190, [new_fimg]). *)
Record pfun := PF { pf_tri : option ivor; pf_base : option nat; pf_cache : pcache }.
Definition new_pfun : pfun := PF None None QInit.

(** What len/indexing of g.TriangleCache sees, and whether it shares nextCache's array. *)
Definition pcache_view (arrs : list (list (option pentry))) (c : pcache) : option (list (option pentry) * bool) :=
  match c with
  | QInit => Some ([None; None], false)
  | QOwn l => Some (map Some l, true)
  | QArr k => option_map (fun a => (a, false)) (nth_error arrs k)
  end.

(** Calculate (polygons.go:31-155). *)
Definition calc_pfun (im : fimg) (srt : sorter) (hsrt : point -> list point -> option (list point)) (arrs : list (list (option pentry))) (f : pfun) (base : option ivor)
    (pts : list npoint) (muts : list mut) : option (pfun * f64) :=
  match next_vor im srt hsrt (pf_tri f) base pts muts, pcache_view arrs (pf_cache f) with
  | Some v, Some (view, alias) =>
      match calc_poly im alias view v with
      | None => None
      | Some (fit, next) => Some (PF (Some v) None (QOwn next), fit)
      end
  | _, _ => None
  end.

(* ------------------------------------------------------------------ *)
(** * algorithm/evaluator/parallel.go *)

(** type parallel (parallel.go:10-15) and NewParallel (parallel.go:45-52). *)
Record ppar := PPar { pp_funs : list pfun; pp_order : list nat; pp_arrs : list (list (option pentry)); pp_cur : nat }.
Definition new_pparallel (n : nat) (pow2 : nat) : ppar :=
  PPar (repeat new_pfun n) (seq 0 n) [repeat None (Nat.pow 2 pow2); repeat None (Nat.pow 2 pow2)] 0.

(** The function at position i, with its number. *)
Definition pat_pos (p : ppar) (i : nat) : option (nat * pfun) :=
  match nth_error (pp_order p) i with
  | None => None
  | Some id => option_map (fun f => (id, f)) (nth_error (pp_funs p) id)
  end.

(** Get(i).Calculate (parallel.go:17-19); as in M_Fitness, a function that is its own
    base is left out. *)
Definition ppar_calc (im : fimg) (srt : sorter) (hsrt : point -> list point -> option (list point)) (p : ppar) (i : nat) (pts : list npoint) (muts : list mut) : option (ppar * f64) :=
  match pat_pos p i with
  | None => None
  | Some (id, f) =>
      if match pf_base f with Some b => (b =? id)%nat | None => false end then None else
      let base := match pf_base f with None => None | Some b => match nth_error (pp_funs p) b with None => None | Some g => pf_tri g end end in
      match calc_pfun im srt hsrt (pp_arrs p) f base pts muts with
      | None => None
      | Some (f', fit) => Some (PPar (set_nth id f' (pp_funs p)) (pp_order p) (pp_arrs p) (pp_cur p), fit)
      end
  end.

(** Prepare (parallel.go:21-23). *)
Definition ppar_prepare (p : ppar) : option ppar := Some (PPar (pp_funs p) (pp_order p) (pp_arrs p) (1 - pp_cur p)).

(** Update (parallel.go:25-34).  An entry nil panics. *)
Definition ppar_update (p : ppar) (i : nat) : option ppar :=
  match pat_pos p i with
  | None => None
  | Some (id, f) =>
      match pcache_view (pp_arrs p) (pf_cache f), nth_error (pp_arrs p) (pp_cur p) with
      | Some (view, _), Some arr =>
          match foldM (fun a (d : option pentry) => match d with None => None | Some e => zset a (q_hash e) (Some e) end) view arr with
          | None => None
          | Some arr' => Some (PPar (set_nth id (PF (pf_tri f) (pf_base f) (QArr (pp_cur p))) (pp_funs p)) (pp_order p) (set_nth (pp_cur p) arr' (pp_arrs p)) (pp_cur p))
          end
      | _, _ => None
      end
  end.

(** SetBase (parallel.go:36-38; polygons.go:157-159). *)
Definition ppar_base (p : ppar) (i j : nat) : option ppar :=
  match pat_pos p i, pat_pos p j with
  | Some (id, f), Some (jd, g) =>
      let b := match pf_tri g with None => None | Some _ => Some jd end in
      Some (PPar (set_nth id (PF (pf_tri f) b (pf_cache f)) (pp_funs p)) (pp_order p) (pp_arrs p) (pp_cur p))
  | _, _ => None
  end.

(** Swap (parallel.go:40-42). *)
Definition ppar_swap (p : ppar) (i j : nat) : option ppar :=
  option_map (fun o => PPar (pp_funs p) o (pp_arrs p) (pp_cur p)) (swap_at i j (pp_order p)).

Definition pparallel (im : fimg) (srt : sorter) (hsrt : point -> list point -> option (list point)) : evaluator ppar :=
  Ev (ppar_calc im srt hsrt) ppar_update ppar_prepare ppar_base ppar_swap.
