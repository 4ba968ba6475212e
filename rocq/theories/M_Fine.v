(** Model of calculateFitnesses (algorithm/simple.go:54-88; algorithm/modifiedgenetic.go:99-140)
    with a finer grain than M_Algo.do_act: Calculate and Update are not single events but
    sequences of steps on the shared evaluator, and between any two of them the other
    goroutines may run.  The steps of Calculate (fitness/triangles.go:39-160): creating the
    triangulation, copying one field of the base, one Remove, one Insert, the assignments
    after them, one triangle of the loop, the assignment of TriangleCache.  Each step reads
    what it needs (the base triangulation, the cache array) at the moment it is executed.
    The steps of Update (algorithm/evaluator/parallel.go:25-34): one assignment to the cache
    array, SetCache.  Remove, Insert and the copy of one field stay single steps: they write
    the worker's own triangulation, and the copy reads one field of the base. *)
From Coq Require Import ZArith List Bool.
From Verif Require Import GoNum M_Norm M_Slice M_Geom M_Image M_Raster M_Delaunay M_Algo M_Fitness.
Import ListNotations.
Local Open Scope nat_scope.

(** Where a worker stands in Calculate (fitness/triangles.go:39-160). *)
Inductive phase :=
| FStart                                      (* triangles.go:44 *)
| FSet (k : nat)                              (* in Triangulation.Set, before field k (triangles.go:52) *)
| FRemove (l : list mut)                      (* triangles.go:55-57, the mutations left *)
| FInsert (l : list npoint)                   (* triangles.go:47-49 or 59-61, the points left *)
| FNil                                        (* triangles.go:65-80 *)
| FLoop (l : list dtri) (s : lstate)          (* triangles.go:82-149, the triangles left *)
| FDone (v : f64).                            (* returned, the message is in the channel *)

(** Field k of Delaunay.Set in the order of the code (triangulation/incrdelaunay/delaunay.go:280-304):
    triangles, freeTriangles, superTriangle, grid, pointMap. *)
Definition set_field (k : nat) (d o : delaunay) : option delaunay :=
  match k with
  | 0 => Some (D (d_tris o) (d_grid d) (d_pmap d) (d_free d) (d_super d) (d_num d) (d_unique d))
  | 1 => Some (D (d_tris d) (d_grid d) (d_pmap d) (d_free o) (d_super d) (d_num d) (d_unique d))
  | 2 => Some (D (d_tris d) (d_grid d) (d_pmap d) (d_free d) (d_super o) (d_num d) (d_unique d))
  | 3 => option_map (fun g => D (d_tris d) g (d_pmap d) (d_free d) (d_super d) (d_num d) (d_unique d)) (grid_set (d_grid d) (d_grid o))
  | _ => option_map (fun m => D (d_tris d) (d_grid d) m (d_free d) (d_super d) (d_num d) (d_unique d)) (table_set (d_pmap d) (d_pmap o))
  end.

(** t.TriangleCache is the array of nextCache (fitness/triangles.go:67, 151). *)
Definition shares (c : tcache) : bool := match c with COwn _ => true | _ => false end.
(** What tris[index0] indexes now (fitness/triangles.go:78, 103): an array of the evaluator is
    read in the shared state, the others belong to the function. *)
Definition seen_now (p : par) (f : tfun) (s : lstate) : option (list (option entry)) :=
  match tf_cache f with CArr k => nth_error (p_arrs p) k | _ => Some (l_tris s) end.

(** The value Calculate returns (fitness/triangles.go:153-159). *)
Definition fitness_of (im : fimg) (s : lstate) : f64 :=
  fsub f1 (fdiv (fadd (l_diff s) (fmul (f64_of_Z max_pixel_difference) (fsub (f64_of_Z (i64 (fi_w im * fi_h im))) (l_area s)))) (fi_max im)).

(** One step of Calculate (fitness/triangles.go:39-160) of the function number [id]; [f] is the
    function as it is now. *)
Definition fun_step (im : fimg) (srt : point -> list point -> option (list point)) (p : par) (id : nat) (f : tfun) (pts : list npoint) (muts : list mut) (ph : phase) : option (tfun * phase) :=
  match ph with
  | FStart =>
      match tf_tri f with
      | None => option_map (fun d => (TF (Some d) (tf_base f) (tf_cache f), FInsert pts)) (new_delaunay (fi_w im) (fi_h im))
      | Some _ => match tf_base f with
                  | None => Some (f, FNil)
                  | Some b => if b =? id then None else Some (f, FSet 0)
                  end
      end
  | FSet k =>
      match tf_tri f, tf_base f with
      | Some d, Some b =>
          match nth_error (p_funs p) b with
          | Some g => match tf_tri g with
                      | Some o => option_map (fun d' => (TF (Some d') (tf_base f) (tf_cache f), if k <? 4 then FSet (S k) else FRemove muts)) (set_field k d o)
                      | None => None end
          | None => None
          end
      | _, _ => None
      end
  | FRemove [] => Some (f, FInsert (map m_new muts))
  | FRemove (m :: l) =>
      match tf_tri f with
      | None => None
      | Some d => let q := mut_point im (m_old m) in option_map (fun d' => (TF (Some d') (tf_base f) (tf_cache f), FRemove l)) (remove (srt q) d q)
      end
  | FInsert [] => Some (f, FNil)
  | FInsert (q :: l) =>
      match tf_tri f with
      | None => None
      | Some d => option_map (fun d' => (TF (Some d') (tf_base f) (tf_cache f), FInsert l)) (insert d (mut_point im q))
      end
  | FNil =>
      match tf_tri f, cache_view (p_arrs p) (tf_cache f) with
      | Some d, Some (view, _) => Some (TF (Some d) None (tf_cache f), FLoop (iter_triangles d) (LS f0 f0 [] view))
      | _, _ => None
      end
  | FLoop (t :: l) s =>
      match seen_now p f s with
      | None => None
      | Some view => option_map (fun s' => (f, FLoop l s')) (tri_step im (shares (tf_cache f)) (LS (l_diff s) (l_area s) (l_next s) view) t)
      end
  | FLoop [] s => Some (TF (tf_tri f) None (COwn (l_next s)), FDone (fitness_of im s))
  | FDone _ => None
  end.

(** The state while the workers run: fs_work are the closures of the pool
    (algorithm/simple.go:61-72), fs_main is the loop of Update the collecting loop is in, with
    the entries left, fs_prep: Prepare has been called (algorithm/simple.go:76), fs_got: the
    messages received (algorithm/simple.go:79-87), fs_res: the messages sent. *)
Record fstate := FS { fs_core : core par; fs_work : list phase; fs_main : option (nat * list (option entry)); fs_prep : bool; fs_got : list nat; fs_res : results }.

(** The steps: worker i goes on; evaluator.Prepare; the message of worker i is received, its
    fitness is stored and Update is called; Update goes on. *)
Inductive fact := FWork (i : nat) | FPrep | FRecv (i : nat) | FUpd.

(** What the goroutines can do next (algorithm/simple.go:54-88).  Prepare is called once, messages
    are received after it, one at a time, each once. *)
Definition enabled (st : fstate) (a : fact) : Prop :=
  match a with
  | FWork i => exists ph, nth_error (fs_work st) i = Some ph /\ forall v, ph <> FDone v
  | FPrep => fs_prep st = false
  | FRecv i => fs_prep st = true /\ fs_main st = None /\ result (fs_res st) i <> None /\ ~ In i (fs_got st)
  | FUpd => fs_main st <> None
  end.

Section Fine.
Context (im : fimg) (srt : point -> list point -> option (list point)).
Definition set_fun (p : par) (id : nat) (f : tfun) : par := Par (set_nth id f (p_funs p)) (p_order p) (p_arrs p) (p_cur p).

(** One step (algorithm/simple.go:63-70, 76, 80-81; algorithm/evaluator/parallel.go:25-34); [None]
    is a panic. *)
Definition fine_step (st : fstate) (a : fact) : option fstate :=
  let c := fs_core st in
  match a with
  | FWork i =>
      match nth_error (fs_work st) i, nth_error (c_pop c) i, nth_error (c_muts c) i, at_pos (c_ev c) i with
      | Some ph, Some b, Some ms, Some (id, f) =>
          match fun_step im srt (c_ev c) id f (buf c b) ms ph with
          | None => None
          | Some (f', ph') =>
              Some (FS (with_ev c (set_fun (c_ev c) id f')) (set_nth i ph' (fs_work st)) (fs_main st) (fs_prep st) (fs_got st)
                       (match ph' with FDone v => (i, v) :: fs_res st | _ => fs_res st end))
          end
      | _, _, _, _ => None
      end
  | FPrep => option_map (fun e => FS (with_ev c e) (fs_work st) (fs_main st) true (fs_got st) (fs_res st)) (par_prepare (c_ev c))
  | FRecv i =>
      match result (fs_res st) i, at_pos (c_ev c) i with
      | Some v, Some (_, f) =>
          match put i v (c_fits c), cache_view (p_arrs (c_ev c)) (tf_cache f) with
          | Some fs, Some (view, _) => Some (FS (with_fits c fs) (fs_work st) (Some (i, view)) (fs_prep st) (i :: fs_got st) (fs_res st))
          | _, _ => None
          end
      | _, _ => None
      end
  | FUpd =>
      let p := c_ev c in
      match fs_main st with
      | None => None
      | Some (i, []) =>
          match at_pos p i with
          | None => None
          | Some (id, f) => Some (FS (with_ev c (set_fun p id (TF (tf_tri f) (tf_base f) (CArr (p_cur p))))) (fs_work st) None (fs_prep st) (fs_got st) (fs_res st))
          end
      | Some (i, d :: l) =>
          match d, nth_error (p_arrs p) (p_cur p) with
          | Some e, Some arr =>
              option_map (fun arr' => FS (with_ev c (Par (p_funs p) (p_order p) (set_nth (p_cur p) arr' (p_arrs p)) (p_cur p))) (fs_work st) (Some (i, l)) (fs_prep st) (fs_got st) (fs_res st))
                         (zset arr (e_hash e) (Some e))
          | _, _ => None
          end
      end
  end.

(** The executions (algorithm/simple.go:54-88): any sequence of enabled steps. *)
Inductive fine_run : fstate -> list fact -> fstate -> Prop :=
| fr_nil st : fine_run st [] st
| fr_snoc st t st1 a st2 : fine_run st t st1 -> enabled st1 a -> fine_step st1 a = Some st2 -> fine_run st (t ++ [a]) st2.
End Fine.

(** The workers have been submitted (algorithm/simple.go:61-72); a worker that has not been
    started is one that has made no step. *)
Definition fine_start (lim : nat) (c : core par) : fstate := FS c (repeat FStart lim) None false [] [].
