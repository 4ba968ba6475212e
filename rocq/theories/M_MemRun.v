(** The triangle fitness functions and the parallel evaluator on the memory of M_Mem: all
    triangulations lie in one memory, and the fields Triangulation and Base are pointers to
    triangulations.  M_Fitness gives every function a triangulation of its own as a value. *)
From Coq Require Import ZArith List Bool Arith.
From Verif Require Import GoNum M_Norm M_Slice M_Geom M_Image M_Raster M_Delaunay M_Algo M_Fitness M_Heap M_Cells M_Mem.
Import ListNotations.
Local Open Scope nat_scope.

Section Run.
Context (grow : forall A : Type, list (list A) -> nat) (im : fimg) (srt : point -> list point -> option (list point)).

(** IterTriangles (delaunay.go:258-272) on the slice of triangles. *)
Definition x_iter (m : mem) (x : xd) : list dtri :=
  let s := x_super x in
  filter (fun t => negb (is_freed t) && negb (has_vertex t (d_a s) || has_vertex t (d_b s) || has_vertex t (d_c s))) (elems (m_t m) (x_tris x)).

(** Set of triangulation k to triangulation o, which may be the same (delaunay.go:280-304). *)
Definition x_assign (k o : nat) (s : pool) : option pool :=
  if k =? o then match nth_error (w_all s) k with None => None | Some x => Some (Pool (w_mem s) (set_nth k (x_set_self (w_mem s) x) (w_all s))) end
  else x_step grow srt s (DSet k o).

(** The first part of Calculate (triangles.go:44-62): [tri] and [base] are the pointers
    Triangulation and Base; the result has the pointer Triangulation. *)
Definition x_next (tri base : option nat) (pts : list npoint) (muts : list mut) (s : pool) : option (pool * nat) :=
  match tri with
  | None =>
      let k := length (w_all s) in
      option_map (fun s' => (s', k)) (x_run grow srt (DNew (fi_w im) (fi_h im) :: map (fun p => DInsert k (mut_point im p)) pts) s)
  | Some k =>
      match base with
      | None => Some (s, k)
      | Some o =>
          match x_assign k o s with
          | None => None
          | Some s1 => option_map (fun s' => (s', k)) (x_run grow srt (map (fun m => DRemove k (mut_point im (m_old m))) muts ++ map (fun m => DInsert k (mut_point im (m_new m))) muts) s1)
          end
      end
  end.

(** The rest of Calculate (triangles.go:64-159) for the triangles IterTriangles reports. *)
Definition x_score (alias : bool) (tris : list (option entry)) (ts : list dtri) : option (f64 * list entry) :=
  match foldM (tri_step im alias) ts (LS f0 f0 [] tris) with
  | None => None
  | Some s =>
      let blank := fsub (f64_of_Z (i64 (fi_w im * fi_h im))) (l_area s) in
      let difference := fadd (l_diff s) (fmul (f64_of_Z max_pixel_difference) blank) in
      Some (fsub f1 (fdiv difference (fi_max im)), l_next s)
  end.

(** A *trianglesImageFunction (triangles.go:15-36). *)
Record xfun := XF { xf_tri : option nat; xf_base : option nat; xf_cache : tcache }.
(** type parallel (parallel.go:10-15), with the memory the functions use. *)
Record xpar := XP { xp_funs : list xfun; xp_order : list nat; xp_arrs : list (list (option entry)); xp_cur : nat; xp_pool : pool }.

(** NewParallel (parallel.go:45-52) of the functions TrianglesImageFunctions makes (triangles.go:175-197). *)
Definition new_xpar (n : nat) (pow2 : nat) : xpar :=
  XP (repeat (XF None None CInit) n) (seq 0 n) [repeat None (Nat.pow 2 pow2); repeat None (Nat.pow 2 pow2)] 0 no_pool.

Definition x_at_pos (p : xpar) (i : nat) : option (nat * xfun) :=
  match nth_error (xp_order p) i with
  | None => None
  | Some id => option_map (fun f => (id, f)) (nth_error (xp_funs p) id)
  end.
Definition x_put_fun (p : xpar) (id : nat) (f : xfun) : xpar := XP (set_nth id f (xp_funs p)) (xp_order p) (xp_arrs p) (xp_cur p) (xp_pool p).

(** Get(i).Calculate (parallel.go:17-19; triangles.go:39-160). *)
Definition xpar_calc (p : xpar) (i : nat) (pts : list npoint) (muts : list mut) : option (xpar * f64) :=
  match x_at_pos p i with
  | None => None
  | Some (id, f) =>
      match x_next (xf_tri f) (xf_base f) pts muts (xp_pool p), cache_view (xp_arrs p) (xf_cache f) with
      | Some (s, k), Some (view, alias) =>
          match nth_error (w_all s) k with
          | None => None
          | Some x =>
              match x_score alias view (x_iter (w_mem s) x) with
              | None => None
              | Some (fit, next) => Some (XP (set_nth id (XF (Some k) None (COwn next)) (xp_funs p)) (xp_order p) (xp_arrs p) (xp_cur p) s, fit)
              end
          end
      | _, _ => None
      end
  end.

(** Prepare, Update, Swap (parallel.go:21-34, 40-42). *)
Definition xpar_prepare (p : xpar) : option xpar := Some (XP (xp_funs p) (xp_order p) (xp_arrs p) (1 - xp_cur p) (xp_pool p)).
Definition xpar_update (p : xpar) (i : nat) : option xpar :=
  match x_at_pos p i with
  | None => None
  | Some (id, f) =>
      match cache_view (xp_arrs p) (xf_cache f), nth_error (xp_arrs p) (xp_cur p) with
      | Some (view, _), Some arr =>
          match foldM (fun a (d : option entry) => match d with None => None | Some e => zset a (e_hash e) (Some e) end) view arr with
          | None => None
          | Some arr' => Some (XP (set_nth id (XF (xf_tri f) (xf_base f) (CArr (xp_cur p))) (xp_funs p)) (xp_order p) (set_nth (xp_cur p) arr' (xp_arrs p)) (xp_cur p) (xp_pool p))
          end
      | _, _ => None
      end
  end.
Definition xpar_swap (p : xpar) (i j : nat) : option xpar :=
  option_map (fun o => XP (xp_funs p) o (xp_arrs p) (xp_cur p) (xp_pool p)) (swap_at i j (xp_order p)).

(** SetBase (parallel.go:36-38; triangles.go:162-164): the pointer is copied. *)
Definition xpar_base (p : xpar) (i j : nat) : option xpar :=
  match x_at_pos p i, x_at_pos p j with
  | Some (id, f), Some (_, g) => Some (x_put_fun p id (XF (xf_tri f) (xf_tri g) (xf_cache f)))
  | _, _ => None
  end.

(** The evaluator. *)
Definition xparallel : evaluator xpar := Ev xpar_calc xpar_update xpar_prepare xpar_base xpar_swap.
End Run.
