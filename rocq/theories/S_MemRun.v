(** How the state of the evaluator in memory (M_MemRun) shows a state of the evaluator over
    values (M_Fitness). *)
From Coq Require Import ZArith List Bool Arith.
From Verif Require Import GoNum M_Norm M_Slice M_Geom M_Image M_Raster S_Norm M_Delaunay S_Delaunay M_Algo S_Algo M_Fitness S_Fitness S_Run S_Run2 M_Heap M_Cells M_Mem S_Mem M_MemRun.
Import ListNotations.
Local Open Scope nat_scope.

(** The number of the function whose triangulation the pointer [o] points to. *)
Definition points_to (o : nat) (f : xfun) : bool := match xf_tri f with Some k => k =? o | None => false end.
Fixpoint owner (o : nat) (l : list xfun) : option nat :=
  match l with [] => None | f :: l' => if points_to o f then Some 0 else option_map S (owner o l') end.

(** The values behind the pointers. *)
Definition plain_fun (s : pool) (l : list xfun) (f : xfun) : tfun :=
  TF (match xf_tri f with None => None | Some k => nth_error (views s) k end) (match xf_base f with None => None | Some o => owner o l end) (xf_cache f).
Definition plain (p : xpar) : par := Par (map (plain_fun (xp_pool p) (xp_funs p)) (xp_funs p)) (xp_order p) (xp_arrs p) (xp_cur p).

(** The same population, fitnesses, mutations, best member and statistics. *)
Definition same_algo {A B} (c : core A) (k : core B) : Prop :=
  c_store c = c_store k /\ c_pop c = c_pop k /\ c_newpop c = c_newpop k /\ c_best c = c_best k /\ c_fits c = c_fits k /\ c_muts c = c_muts k /\ c_bestfit c = c_bestfit k /\ c_gen c = c_gen k.

(** A constructor and a number of Steps; what the mutator, the scheduler and sort.Sort do in
    each is given. *)
Definition step_data : Type := mutator * list act * list (nat * nat).
Fixpoint simple_steps_of {E} (ev : evaluator E) (cutoff : nat) (l : list step_data) (cr : core E * list results) : option (core E * list results) :=
  match l with
  | [] => Some cr
  | (mu, s, sw) :: l' => match simple_step ev cutoff mu s sw (fst cr) with None => None | Some (c, r) => simple_steps_of ev cutoff l' (c, snd cr ++ [r]) end
  end.
Definition simple_run_of {E} (ev : evaluator E) (cutoff : nat) (groups : list (list npoint)) (e : E) (s : list act) (sw : list (nat * nat)) (l : list step_data) : option (core E * list results) :=
  match new_simple ev groups e s sw with None => None | Some (c, r) => simple_steps_of ev cutoff l (c, [r]) end.
Fixpoint genetic_steps_of {E} (ev : evaluator E) (cutoff : nat) (l : list step_data) (gr : mgen E * list results) : option (mgen E * list results) :=
  match l with
  | [] => Some gr
  | (mu, s, sw) :: l' => match genetic_step ev cutoff mu s sw (fst gr) with None => None | Some (g, r) => genetic_steps_of ev cutoff l' (g, snd gr ++ [r]) end
  end.
Definition genetic_run_of {E} (ev : evaluator E) (cutoff : nat) (groups : list (list npoint)) (e : E) (s : list act) (sw : list (nat * nat)) (l : list step_data) : option (mgen E * list results) :=
  match new_genetic ev cutoff groups e s sw with None => None | Some (g, r) => genetic_steps_of ev cutoff l (g, [r]) end.
(** All schedules are possible ones for [n] workers. *)
Definition schedules_ok (n : nat) (s : list act) (l : list step_data) : Prop := valid_schedule n s /\ Forall (fun d => valid_schedule n (snd (fst d))) l.

(** NewSimple on the evaluator in memory and Steps, as simple_program of S_Run2; the same for
    modifiedGenetic as long as all fitnesses are positive, as genetic_run of S_Run. *)
Section Program.
Context (grow : forall A : Type, list (list A) -> nat) (im : fimg) (srt : point -> list point -> option (list point)) (cutoff n l pow2 : nat).
Inductive mem_program : core xpar -> Prop :=
| mp_new groups s sw c r : point_groups n l groups -> valid_schedule n s -> swaps_within n sw ->
    new_simple (xparallel grow im srt) groups (new_xpar n pow2) s sw = Some (c, r) -> sort_sorts (c_fits c) -> mem_program c
| mp_step c mu s sw c' r : mem_program c -> mutator_ok mu -> valid_schedule n s -> swaps_within n sw ->
    simple_step (xparallel grow im srt) cutoff mu s sw c = Some (c', r) -> sort_sorts (c_fits c') -> mem_program c'.
Inductive mem_genetic : mgen xpar -> Prop :=
| mg_new groups s sw g r : point_groups n l groups -> valid_schedule (n - cutoff) s -> swaps_within n sw ->
    new_genetic (xparallel grow im srt) cutoff groups (new_xpar n pow2) s sw = Some (g, r) -> sorted (c_fits (g_core g)) ->
    Forall (fun x => flt f0 (snd x) = true) r -> mem_genetic g
| mg_step g mu s sw g' r : mem_genetic g -> mutator_ok mu -> valid_schedule (n - cutoff) s -> swaps_within n sw ->
    genetic_step (xparallel grow im srt) cutoff mu s sw g = Some (g', r) -> sorted (c_fits (g_core g')) -> Forall (fun x => flt f0 (snd x) = true) r -> mem_genetic g'.
End Program.

(** The pointer Triangulation of the function at position [i] points to a Delaunay triangulation
    of the points [pts] in memory, with the fitness [f]; Base is nil. *)
Definition mem_delaunay (im : fimg) (p : xpar) (i : nat) (pts : list npoint) (f : f64) : Prop :=
  exists id t k x, nth_error (xp_order p) i = Some id /\ nth_error (xp_funs p) id = Some t /\ xf_tri t = Some k /\ xf_base t = None /\ nth_error (w_all (xp_pool p)) k = Some x /\
    delaunay_triangulation (fi_w im) (fi_h im) (map (mut_point im) pts) (view (w_mem (xp_pool p)) x) /\ plain_fitness im (view (w_mem (xp_pool p)) x) = Some f.
