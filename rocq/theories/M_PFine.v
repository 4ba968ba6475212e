(** M_Fine for the polygon functions: calculateFitnesses (algorithm/simple.go:54-88;
    algorithm/modifiedgenetic.go:99-140) with the Calculate of fitness/polygons.go:31-155 and
    Update (algorithm/evaluator/parallel.go:25-34) as sequences of steps on the shared
    evaluator, between which the other goroutines may run.  The steps of Calculate: creating
    the diagram, copying one field of the base (the five of its triangulation and the polygon
    map), one Remove, one Insert, the assignments after them, one polygon of the loop, the
    assignment of TriangleCache.  Each step reads what it needs (the base diagram, the cache
    array) at the moment it is executed.  The steps of Update: one assignment to the cache
    array, SetCache.  Remove and Insert write the worker's own diagram only and stay single
    steps, as in M_Fine; the lists of vertices in the polygon map, which copies of a map share, are
    never written (voronoi.go:99-278 makes a new one for every cell). *)
From Coq Require Import ZArith List Bool.
From Verif Require Import GoNum M_Norm M_Slice M_Geom M_Image M_Raster M_Delaunay M_Algo M_Fitness M_Voronoi M_Polygons M_Fine.
Import ListNotations.
Local Open Scope nat_scope.

(** Where a worker stands in Calculate (fitness/polygons.go:31-155). *)
Inductive vphase :=
| VStart                                      (* polygons.go:36 *)
| VSet (k : nat)                              (* in Triangulation.Set, before field k (polygons.go:44) *)
| VRemove (l : list mut)                      (* polygons.go:47-49, the mutations left *)
| VInsert (l : list npoint)                   (* polygons.go:39-41 or 51-53, the points left *)
| VNil                                        (* polygons.go:57-70 *)
| VLoop (l : list (list fpoint)) (s : pstate) (* polygons.go:76-150, the polygons left *)
| VDone (v : f64).                            (* returned, the message is in the channel *)

(** Field k of IVoronoi.Set in the order of the code (triangulation/incrdelaunay/voronoi.go:298-301):
    those of Delaunay.Set ([set_field]), then the polygon map. *)
Definition vset_field (k : nat) (v o : ivor) : option ivor :=
  if k <? 5 then option_map (fun d => IV d (v_w v) (v_h v) (v_map v)) (set_field k (v_d v) (v_d o))
  else option_map (IV (v_d v) (v_w v) (v_h v)) (table_set (v_map v) (v_map o)).

(** g.TriangleCache is the array of nextCache (fitness/polygons.go:59, 152). *)
Definition vshares (c : pcache) : bool := match c with QOwn _ => true | _ => false end.
(** What tris[index0] indexes now (fitness/polygons.go:70, 101): an array of the evaluator is
    read in the shared state, the others belong to the function. *)
Definition vseen_now (p : ppar) (f : pfun) (s : pstate) : option (list (option pentry)) :=
  match pf_cache f with QArr k => nth_error (pp_arrs p) k | _ => Some (ps_tris s) end.

(** The value Calculate returns (fitness/polygons.go:154). *)
Definition vfitness_of (im : fimg) (s : pstate) : f64 := fsub f1 (fdiv (ps_diff s) (fi_max im)).

(** One step of Calculate (fitness/polygons.go:31-155) of the function number [id]; [f] is the
    function as it is now. *)
Definition vfun_step (im : fimg) (srt : sorter) (hsrt : point -> list point -> option (list point)) (p : ppar) (id : nat) (f : pfun) (pts : list npoint) (muts : list mut) (ph : vphase) : option (pfun * vphase) :=
  match ph with
  | VStart =>
      match pf_tri f with
      | None => option_map (fun d => (PF (Some d) (pf_base f) (pf_cache f), VInsert pts)) (new_voronoi (fi_w im) (fi_h im))
      | Some _ => match pf_base f with
                  | None => Some (f, VNil)
                  | Some b => if b =? id then None else Some (f, VSet 0)
                  end
      end
  | VSet k =>
      match pf_tri f, pf_base f with
      | Some d, Some b =>
          match nth_error (pp_funs p) b with
          | Some g => match pf_tri g with
                      | Some o => option_map (fun d' => (PF (Some d') (pf_base f) (pf_cache f), if k <? 5 then VSet (S k) else VRemove muts)) (vset_field k d o)
                      | None => None end
          | None => None
          end
      | _, _ => None
      end
  | VRemove [] => Some (f, VInsert (map m_new muts))
  | VRemove (m :: l) =>
      match pf_tri f with
      | None => None
      | Some d => let q := mut_point im (m_old m) in option_map (fun d' => (PF (Some d') (pf_base f) (pf_cache f), VRemove l)) (iv_remove srt hsrt d q)
      end
  | VInsert [] => Some (f, VNil)
  | VInsert (q :: l) =>
      match pf_tri f with
      | None => None
      | Some d => option_map (fun d' => (PF (Some d') (pf_base f) (pf_cache f), VInsert l)) (iv_insert srt d (mut_point im q))
      end
  | VNil =>
      match pf_tri f, pcache_view (pp_arrs p) (pf_cache f) with
      | Some d, Some (view, _) => Some (PF (Some d) None (pf_cache f), VLoop (iv_iter d) (PS f0 [] view))
      | _, _ => None
      end
  | VLoop (t :: l) s =>
      match vseen_now p f s with
      | None => None
      | Some view => option_map (fun s' => (f, VLoop l s')) (poly_step im (vshares (pf_cache f)) (PS (ps_diff s) (ps_next s) view) t)
      end
  | VLoop [] s => Some (PF (pf_tri f) None (QOwn (ps_next s)), VDone (vfitness_of im s))
  | VDone _ => None
  end.

(** The state while the workers run: vs_work are the closures of the pool
    (algorithm/simple.go:61-72), vs_main is the loop of Update the collecting loop is in, with
    the entries left, vs_prep: Prepare has been called (algorithm/simple.go:76), vs_got: the
    messages received (algorithm/simple.go:79-87), vs_res: the messages sent. *)
Record vstate := VS { vs_core : core ppar; vs_work : list vphase; vs_main : option (nat * list (option pentry)); vs_prep : bool; vs_got : list nat; vs_res : results }.

(** The steps: worker i goes on; evaluator.Prepare; the message of worker i is received, its
    fitness is stored and Update is called; Update goes on. *)
Inductive vact := VWork (i : nat) | VPrep | VRecv (i : nat) | VUpd.

(** What the goroutines can do next (algorithm/simple.go:54-88).  Prepare is called once, messages
    are received after it, one at a time, each once. *)
Definition venabled (st : vstate) (a : vact) : Prop :=
  match a with
  | VWork i => exists ph, nth_error (vs_work st) i = Some ph /\ forall v, ph <> VDone v
  | VPrep => vs_prep st = false
  | VRecv i => vs_prep st = true /\ vs_main st = None /\ result (vs_res st) i <> None /\ ~ In i (vs_got st)
  | VUpd => vs_main st <> None
  end.

Section Fine.
Context (im : fimg) (srt : sorter) (hsrt : point -> list point -> option (list point)).
Definition vset_fun (p : ppar) (id : nat) (f : pfun) : ppar := PPar (set_nth id f (pp_funs p)) (pp_order p) (pp_arrs p) (pp_cur p).

(** One step (algorithm/simple.go:63-70, 76, 80-81; algorithm/evaluator/parallel.go:25-34); [None]
    is a panic. *)
Definition vfine_step (st : vstate) (a : vact) : option vstate :=
  let c := vs_core st in
  match a with
  | VWork i =>
      match nth_error (vs_work st) i, nth_error (c_pop c) i, nth_error (c_muts c) i, pat_pos (c_ev c) i with
      | Some ph, Some b, Some ms, Some (id, f) =>
          match vfun_step im srt hsrt (c_ev c) id f (buf c b) ms ph with
          | None => None
          | Some (f', ph') =>
              Some (VS (with_ev c (vset_fun (c_ev c) id f')) (set_nth i ph' (vs_work st)) (vs_main st) (vs_prep st) (vs_got st)
                       (match ph' with VDone v => (i, v) :: vs_res st | _ => vs_res st end))
          end
      | _, _, _, _ => None
      end
  | VPrep => option_map (fun e => VS (with_ev c e) (vs_work st) (vs_main st) true (vs_got st) (vs_res st)) (ppar_prepare (c_ev c))
  | VRecv i =>
      match result (vs_res st) i, pat_pos (c_ev c) i with
      | Some v, Some (_, f) =>
          match put i v (c_fits c), pcache_view (pp_arrs (c_ev c)) (pf_cache f) with
          | Some fs, Some (view, _) => Some (VS (with_fits c fs) (vs_work st) (Some (i, view)) (vs_prep st) (i :: vs_got st) (vs_res st))
          | _, _ => None
          end
      | _, _ => None
      end
  | VUpd =>
      let p := c_ev c in
      match vs_main st with
      | None => None
      | Some (i, []) =>
          match pat_pos p i with
          | None => None
          | Some (id, f) => Some (VS (with_ev c (vset_fun p id (PF (pf_tri f) (pf_base f) (QArr (pp_cur p))))) (vs_work st) None (vs_prep st) (vs_got st) (vs_res st))
          end
      | Some (i, d :: l) =>
          match d, nth_error (pp_arrs p) (pp_cur p) with
          | Some e, Some arr =>
              option_map (fun arr' => VS (with_ev c (PPar (pp_funs p) (pp_order p) (set_nth (pp_cur p) arr' (pp_arrs p)) (pp_cur p))) (vs_work st) (Some (i, l)) (vs_prep st) (vs_got st) (vs_res st))
                         (zset arr (q_hash e) (Some e))
          | _, _ => None
          end
      end
  end.

(** The executions (algorithm/simple.go:54-88): any sequence of venabled steps. *)
Inductive vfine_run : vstate -> list vact -> vstate -> Prop :=
| vr_nil st : vfine_run st [] st
| vr_snoc st t st1 a st2 : vfine_run st t st1 -> venabled st1 a -> vfine_step st1 a = Some st2 -> vfine_run st (t ++ [a]) st2.
End Fine.

(** The workers have been submitted (algorithm/simple.go:61-72); a worker that has not been
    started is one that has made no step. *)
Definition vfine_start (lim : nat) (c : core ppar) : vstate := VS c (repeat VStart lim) None false [] [].
