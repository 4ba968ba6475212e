(** Model of fitness/cache.go (triangles), fitness/triangles.go, Delaunay.Set and
    algorithm/evaluator/parallel.go.

    Not here: fitness/polygons.go and PolygonCacheData (see M_Polygons), NewOne
    and NewMany. *)
From Coq Require Import ZArith List Bool.
From Flocq Require Import IEEE754.BinarySingleNaN.
From Verif Require Import GoNum M_Norm M_Slice M_Geom M_Image M_Raster M_Delaunay M_Algo.
Import ListNotations.
Open Scope Z_scope.

(* ------------------------------------------------------------------ *)
(** * Delaunay.Set as an assignment of values.  That the Go code, which copies between
    slices of given lengths and capacities, amounts to this is C49. *)

(** The loops of pointMap.Set (pointmap.go:85-96): every bucket of [t] becomes the
    bucket of [o] with the same index. *)
Definition table_set {A} (t o : list (list A)) : option (list (list A)) := mapM (fun i => nth_error o i) (seq 0 (length t)).

(** CircumcircleGrid.Set (grid.go:256-269); it keeps the geometry of [g]. *)
Definition grid_set (g o : grid) : option grid :=
  match mapM (fun i => match nth_error (g_cells g) i, nth_error (g_cells o) i with
                       | Some c, Some c' => table_set c c'
                       | _, _ => None end) (seq 0 (length (g_cells g))) with
  | None => None
  | Some cells => Some (Grid cells (g_cols g) (g_rows g) (g_rowpx g) (g_colpx g))
  end.

(** Delaunay.Set (delaunay.go:280-304): numPoints and uniquePoints are not copied. *)
Definition d_set (d o : delaunay) : option delaunay :=
  match grid_set (d_grid d) (d_grid o), table_set (d_pmap d) (d_pmap o) with
  | Some g, Some pm => Some (D (d_tris o) g pm (d_free o) (d_super o) (d_num d) (d_unique d))
  | _, _ => None
  end.

(* ------------------------------------------------------------------ *)
(** * fitness/cache.go *)

(** type TriangleCacheData (cache.go:20-27). *)
Record entry := Entry { e_p : point; e_q : point; e_s : point; e_fit : f64; e_hash : Z }.

(** TriangleCacheData.Equals (cache.go:34-39). *)
Definition entry_eq (e : entry) (a b c : point) : bool := peq (e_p e) a && peq (e_q e) b && peq (e_s e) c.

(** TriangleCacheData.Hash (cache.go:42-47). *)
Definition tri_hash (a b c : point) : Z := u64 ((97 + (px a + px b + px c)) * 97 + (py a + py b + py c)).

(** cacheMask and index0 (triangles.go:76, 101): uint64(len)-1 and uint32(hash & cacheMask). *)
Definition cache_index (len : Z) (hash : Z) : Z := u32 (Z.land hash (u64 (u64 len - 1))).

(* ------------------------------------------------------------------ *)
(** * fitness/triangles.go *)

(** The image data of a trianglesImageFunction (triangles.go:15-23).  [fi_fuel] bounds
    the loops of the rasteriser; running out of it stands for not returning. *)
Record fimg := FImg { fi_w : Z; fi_h : Z; fi_px : list (list pixel); fi_pxn : list (list pixel); fi_bs : Z; fi_max : f64; fi_fuel : nat }.

(** const maxPixelDifference (util.go:8) *)
Definition max_pixel_difference : Z := 195075.

(** The data TrianglesImageFunctions and NewTrianglesImageFunction build
    (triangles.go:176-191, 199-208). *)
Definition new_fimg (fuel : nat) (im : idata) (bs : Z) : option fimg :=
  match from_image im, from_imageN im bs with
  | Some p, Some pn => Some (FImg (i_w im) (i_h im) p pn bs (f64_of_Z (i64 (i64 (max_pixel_difference * i_w im) * i_h im))) fuel)
  | _, _ => None
  end.

(** n, sR0, sG0, sB0, sSq (triangles.go:110-112). *)
Record sums := Sums { s_n : Z; s_r : Z; s_g : Z; s_b : Z; s_sq : Z }.
Definition sums0 := Sums 0 0 0 0 0.
Definition add_px (s : sums) (p : pixel) : sums :=
  Sums (s_n s) (i64 (s_r s + p_r p)) (i64 (s_g s + p_g p)) (i64 (s_b s + p_b p)) (i64 (s_sq s + p_sq p)).
Definition add_n (s : sums) (k : Z) : sums := Sums (i64 (s_n s + k)) (s_r s) (s_g s) (s_b s) (s_sq s).

(** The two callbacks (triangles.go:116-135). *)
Definition on_event (im : fimg) (s : sums) (e : event) : option sums :=
  match e with
  | Line x0 x1 y =>
      match znth (fi_px im) y with
      | None => None
      | Some row =>
          match (if (0 <=? x0) && (x1 <=? Z.of_nat (length row))
                 then foldM (fun s x => match znth row x with None => None | Some p => Some (add_px s p) end) (zfor x0 x1) s
                 else Some s) with
          | None => None
          | Some s' => Some (add_n s' (i64 (x1 - x0)))
          end
      end
  | Block x y =>
      match znth (fi_pxn im) y with
      | None => None
      | Some row => match znth row x with None => None | Some p => Some (add_n (add_px s p) (i64 (fi_bs im * fi_bs im))) end
      end
  end.

(** [diff] (triangles.go:136-139) from the sums. *)
Definition diff_of (s : sums) : f64 :=
  if s_n s =? 0 then f0 else
  fsub (f64_of_Z (s_sq s)) (fdiv (f64_of_Z (i64 (i64 (i64 (s_r s * s_r s) + i64 (s_g s * s_g s)) + i64 (s_b s * s_b s)))) (f64_of_Z (s_n s))).

(** The calculation on a miss (triangles.go:110-139). *)
Definition tri_diff (im : fimg) (a b c : point) : option f64 :=
  match dda_blocks (fi_fuel im) (Tri a b c) (fi_bs im) with
  | None => None
  | Some ev => option_map diff_of (foldM (on_event im) ev sums0)
  end.

(** The area added for a triangle (triangles.go:88): int16 differences. *)
Definition tri_area (a b c : point) : f64 :=
  let f z := f64_of_Z (i16 z) in
  fabs (fmul fhalf (fsub (fmul (f (px b - px a)) (f (py c - py a))) (fmul (f (px c - px a)) (f (py b - py a))))).

(** The state of the loop over the triangles: difference, area, nextCache, and the
    array behind t.TriangleCache.  [alias]: nextCache[:0] is the same array, so the
    append of nextCache[k] overwrites tris[k] (for k >= len(tris) the append does not
    touch the elements of tris; growing the array ends the sharing). *)
Record lstate := LS { l_diff : f64; l_area : f64; l_next : list entry; l_tris : list (option entry) }.

(** One iteration (triangles.go:82-149). *)
Definition tri_step (im : fimg) (alias : bool) (s : lstate) (t : dtri) : option lstate :=
  let a := d_a t in let b := d_b t in let c := d_c t in
  let area := fadd (l_area s) (tri_area a b c) in
  let index0 := cache_index (Z.of_nat (length (l_tris s))) (tri_hash a b c) in
  match znth (l_tris s) index0 with
  | None => None
  | Some data =>
      let miss := match tri_diff im a b c with None => None | Some diff => Some (Entry a b c diff index0) end in
      match (match data with
             | None => miss
             | Some e => if entry_eq e a b c then Some e else miss end) with
      | None => None
      | Some e =>
          Some (LS (fadd (l_diff s) (e_fit e)) area (l_next s ++ [e])
                   (if alias then set_nth (length (l_next s)) (Some e) (l_tris s) else l_tris s))
      end
  end.

(** Calculate from line 64 on: the fitness and the new nextCache (triangles.go:64-160). *)
Definition calc_tri (im : fimg) (alias : bool) (tris : list (option entry)) (d : delaunay) : option (f64 * list entry) :=
  match foldM (tri_step im alias) (iter_triangles d) (LS f0 f0 [] tris) with
  | None => None
  | Some s =>
      let blank := fsub (f64_of_Z (i64 (fi_w im * fi_h im))) (l_area s) in
      let difference := fadd (l_diff s) (fmul (f64_of_Z max_pixel_difference) blank) in
      Some (fsub f1 (fdiv difference (fi_max im)), l_next s)
  end.

(** The first part of Calculate (triangles.go:39-62): the triangulation evaluated.
    [srt p hull] is what sort.Slice leaves in the hull of a removed point p. *)
Definition mut_point (im : fimg) (p : npoint) : point := create_point (nx p) (ny p) (fi_w im) (fi_h im).
Definition next_tri (im : fimg) (srt : point -> list point -> option (list point)) (tri base : option delaunay)
    (pts : list npoint) (muts : list mut) : option delaunay :=
  match tri with
  | None => match new_delaunay (fi_w im) (fi_h im) with None => None | Some d => foldM (fun d p => insert d (mut_point im p)) pts d end
  | Some d =>
      match base with
      | None => Some d
      | Some o =>
          match d_set d o with
          | None => None
          | Some d1 =>
              match foldM (fun d m => let p := mut_point im (m_old m) in remove (srt p) d p) muts d1 with
              | None => None
              | Some d2 => foldM (fun d m => insert d (mut_point im (m_new m))) muts d2
              end
          end
      end
  end.

(** The fields TriangleCache and nextCache (triangles.go:25-29): TriangleCache is the
    array made by the constructor, the array of nextCache, or an array of the evaluator. *)
Inductive tcache := CInit | COwn (l : list entry) | CArr (k : nat).

(** A *trianglesImageFunction.  Triangulation is created once per function and never
    replaced, so the pointer Base is the number of the function it comes from. *)
Record tfun := TF { tf_tri : option delaunay; tf_base : option nat; tf_cache : tcache }.
Definition new_tfun : tfun := TF None None CInit.

(** What len/indexing of t.TriangleCache sees, and whether it shares nextCache's array. *)
Definition cache_view (arrs : list (list (option entry))) (c : tcache) : option (list (option entry) * bool) :=
  match c with
  | CInit => Some ([None; None], false)
  | COwn l => Some (map Some l, true)
  | CArr k => option_map (fun a => (a, false)) (nth_error arrs k)
  end.

(** Calculate (triangles.go:39-160) of the function [f]; [base] is the triangulation
    tf_base points to. *)
Definition calc_fun (im : fimg) (srt : point -> list point -> option (list point)) (arrs : list (list (option entry))) (f : tfun) (base : option delaunay)
    (pts : list npoint) (muts : list mut) : option (tfun * f64) :=
  match next_tri im srt (tf_tri f) base pts muts, cache_view arrs (tf_cache f) with
  | Some d, Some (view, alias) =>
      match calc_tri im alias view d with
      | None => None
      | Some (fit, next) => Some (TF (Some d) None (COwn next), fit)
      end
  | _, _ => None
  end.

(* ------------------------------------------------------------------ *)
(** * algorithm/evaluator/parallel.go *)

(** type parallel (parallel.go:10-15): the functions, the order of their pointers in
    p.evaluators, the two cache arrays and which of them is p.cache. *)
Record par := Par { p_funs : list tfun; p_order : list nat; p_arrs : list (list (option entry)); p_cur : nat }.

(** NewParallel (parallel.go:45-52). *)
Definition new_parallel (n : nat) (pow2 : nat) : par :=
  Par (repeat new_tfun n) (seq 0 n) [repeat None (Nat.pow 2 pow2); repeat None (Nat.pow 2 pow2)] 0.

(** The function at position i, with its number. *)
Definition at_pos (p : par) (i : nat) : option (nat * tfun) :=
  match nth_error (p_order p) i with
  | None => None
  | Some id => option_map (fun f => (id, f)) (nth_error (p_funs p) id)
  end.

(** Get(i).Calculate (parallel.go:17-19).  A function that is its own base is left out
    ([None]): Triangulation.Set(Triangulation) does not copy, see C49_self_refuted. *)
Definition par_calc (im : fimg) (srt : point -> list point -> option (list point)) (p : par) (i : nat) (pts : list npoint) (muts : list mut) : option (par * f64) :=
  match at_pos p i with
  | None => None
  | Some (id, f) =>
      if match tf_base f with Some b => (b =? id)%nat | None => false end then None else
      let base := match tf_base f with None => None | Some b => match nth_error (p_funs p) b with None => None | Some g => tf_tri g end end in
      match calc_fun im srt (p_arrs p) f base pts muts with
      | None => None
      | Some (f', fit) => Some (Par (set_nth id f' (p_funs p)) (p_order p) (p_arrs p) (p_cur p), fit)
      end
  end.

(** Prepare (parallel.go:21-23). *)
Definition par_prepare (p : par) : option par := Some (Par (p_funs p) (p_order p) (p_arrs p) (1 - p_cur p)).

(** Update (parallel.go:25-34).  An entry nil panics. *)
Definition par_update (p : par) (i : nat) : option par :=
  match at_pos p i with
  | None => None
  | Some (id, f) =>
      match cache_view (p_arrs p) (tf_cache f), nth_error (p_arrs p) (p_cur p) with
      | Some (view, _), Some arr =>
          match foldM (fun a (d : option entry) => match d with None => None | Some e => zset a (e_hash e) (Some e) end) view arr with
          | None => None
          | Some arr' => Some (Par (set_nth id (TF (tf_tri f) (tf_base f) (CArr (p_cur p))) (p_funs p)) (p_order p) (set_nth (p_cur p) arr' (p_arrs p)) (p_cur p))
          end
      | _, _ => None
      end
  end.

(** SetBase (parallel.go:36-38; triangles.go:162-164): a function without triangulation
    gives a nil base. *)
Definition par_base (p : par) (i j : nat) : option par :=
  match at_pos p i, at_pos p j with
  | Some (id, f), Some (jd, g) =>
      let b := match tf_tri g with None => None | Some _ => Some jd end in
      Some (Par (set_nth id (TF (tf_tri f) b (tf_cache f)) (p_funs p)) (p_order p) (p_arrs p) (p_cur p))
  | _, _ => None
  end.

(** Swap (parallel.go:40-42). *)
Definition par_swap (p : par) (i j : nat) : option par :=
  option_map (fun o => Par (p_funs p) o (p_arrs p) (p_cur p)) (swap_at i j (p_order p)).

(** The parallel evaluator as an evaluator.Evaluator. *)
Definition parallel (im : fimg) (srt : point -> list point -> option (list point)) : evaluator par :=
  Ev (par_calc im srt) par_update par_prepare par_base par_swap.
