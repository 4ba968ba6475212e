(** Model of package algorithm: simple (algorithm/simple.go) and modifiedGenetic
    (algorithm/modifiedgenetic.go).

    Point groups are arrays in a store and population, newPopulation and best hold
    their addresses, so sharing and overwriting of buffers is part of the model.
    Every group is a whole array: NewSimple gets it from newPointGroup (assumed to
    return a new array each time) or makes it with Copy.  Not modelled: stats.TimeForGen,
    and FitnessData.I of the fitnesses slice, which is written but never read (the
    collecting loop uses the I of the message).  Negative cutoffs are left out. *)
From Coq Require Import ZArith List Bool Arith.
From Verif Require Import GoNum M_Norm M_Slice.
Import ListNotations.

(** The evaluator.Evaluator interface (algorithm/evaluator/evaluators.go:10-25) over
    a state of type E; Get(i) followed by Calculate is one operation, since Get(i)
    only selects an object.  [None] is a panic. *)
Record evaluator (E : Type) := Ev {
  ev_calc : E -> nat -> list npoint -> list mut -> option (E * f64);
  ev_update : E -> nat -> option E;
  ev_prepare : E -> option E;
  ev_base : E -> nat -> nat -> option E;
  ev_swap : E -> nat -> nat -> option E }.
Arguments Ev {E}. Arguments ev_calc {E}. Arguments ev_update {E}. Arguments ev_prepare {E}.
Arguments ev_base {E}. Arguments ev_swap {E}.

(** The fields shared by the structs simple (algorithm/simple.go:20-36) and
    modifiedGenetic (algorithm/modifiedgenetic.go:21-39). *)
Record core (E : Type) := Core {
  c_store : list (list npoint);   (* the arrays of all point groups *)
  c_pop : list nat; c_newpop : list nat; c_best : nat;   (* addresses *)
  c_fits : list f64; c_muts : list (list mut);
  c_bestfit : f64; c_gen : Z;   (* stats *)
  c_ev : E }.
Arguments Core {E}. Arguments c_store {E}. Arguments c_pop {E}. Arguments c_newpop {E}. Arguments c_best {E}.
Arguments c_fits {E}. Arguments c_muts {E}. Arguments c_bestfit {E}. Arguments c_gen {E}. Arguments c_ev {E}.

Section Algo.
Context {E : Type} (ev : evaluator E).

Definition buf (c : core E) (a : nat) : list npoint := nth a (c_store c) [].

(** [dst.Set(src)] (normgeom/normpoint.go:43-49, see M_Slice.group_set) on whole arrays. *)
Definition buf_set (st : list (list npoint)) (dst src : nat) : option (list (list npoint)) :=
  if (length (nth dst st []) =? length (nth src st []))%nat then Some (set_nth dst (nth src st []) st) else None.

Definition with_store (c : core E) st := Core st (c_pop c) (c_newpop c) (c_best c) (c_fits c) (c_muts c) (c_bestfit c) (c_gen c) (c_ev c).
Definition with_muts (c : core E) m := Core (c_store c) (c_pop c) (c_newpop c) (c_best c) (c_fits c) m (c_bestfit c) (c_gen c) (c_ev c).
Definition with_fits (c : core E) f := Core (c_store c) (c_pop c) (c_newpop c) (c_best c) f (c_muts c) (c_bestfit c) (c_gen c) (c_ev c).
Definition with_ev (c : core E) (e : E) := Core (c_store c) (c_pop c) (c_newpop c) (c_best c) (c_fits c) (c_muts c) (c_bestfit c) (c_gen c) e.

(** [l[i] = v] with the bounds check. *)
Definition put {A} (i : nat) (v : A) (l : list A) : option (list A) := if (i <? length l)%nat then Some (set_nth i v l) else None.

(** newPopulation[i].Set(population[j]); mutations[i] = mutations[i][:0]
    (simple.go:103-104, 109-110; modifiedgenetic.go:67-68, 78-79). *)
Definition copy_member (i j : nat) (c : core E) : option (core E) :=
  match nth_error (c_newpop c) i, nth_error (c_pop c) j, put i [] (c_muts c) with
  | Some a, Some b, Some m => option_map (fun st => with_muts (with_store c st) m) (buf_set (c_store c) a b)
  | _, _, _ => None
  end.

(** What mutator.Mutate does to the group of member i: its result and the mutations
    it reports.  Any behaviour of the random source is some such function. *)
Definition mutator := nat -> list npoint -> list npoint * list mut.

(** The body of the inner loop (simple.go:109-116; modifiedgenetic.go:78-87). *)
Definition new_member (mu : mutator) (i j : nat) (c : core E) : option (core E) :=
  match copy_member i j c with
  | None => None
  | Some c1 =>
      match ev_base ev (c_ev c1) i j, nth_error (c_newpop c1) i with
      | Some e, Some a =>
          let (pts, log) := mu i (buf c1 a) in
          Some (with_ev (with_muts (with_store c1 (set_nth a pts (c_store c1))) (set_nth i log (c_muts c1))) e)
      | _, _ => None
      end
  end.

(** The first loop of newGeneration (simple.go:102-105; modifiedgenetic.go:66-69):
    members i, i+1, ..., i+n-1. *)
Fixpoint keep_bases (n i : nat) (c : core E) : option (core E) :=
  match n with
  | O => Some c
  | S n' => match copy_member i i c with None => None | Some c' => keep_bases n' (S i) c' end
  end.

(** The inner loop (simple.go:108-117; modifiedgenetic.go:77-88) with n = cutoff-j
    iterations left and [lim] the bound of the outer loop. *)
Fixpoint inner_loop (mu : mutator) (n j i lim : nat) (c : core E) : option (core E * nat) :=
  match n with
  | O => Some (c, i)
  | S n' => if (i <? lim)%nat then match new_member mu i j c with None => None | Some c' => inner_loop mu n' (S j) (S i) lim c' end
            else Some (c, i)
  end.

(** The outer loop (simple.go:107-118; modifiedgenetic.go:75-89).  Running out of
    fuel stands for not returning. *)
Fixpoint outer_loop (fuel : nat) (mu : mutator) (cutoff i lim : nat) (c : core E) : option (core E) :=
  if (i <? lim)%nat then
    match fuel with
    | O => None
    | S f => match inner_loop mu cutoff 0 i lim c with None => None | Some (c', i') => outer_loop f mu cutoff i' lim c' end
    end
  else Some c.

(** newGeneration of simple (simple.go:99-121, lim = size) and of modifiedGenetic
    (modifiedgenetic.go:60-96, lim = size-cutoff) without the clearing of beneficialMutations. *)
Definition new_generation (mu : mutator) (cutoff lim : nat) (c : core E) : option (core E) :=
  match keep_bases cutoff 0 c with
  | None => None
  | Some c1 =>
      match outer_loop lim mu cutoff cutoff lim c1 with
      | None => None
      | Some c2 => Some (Core (c_store c2) (c_newpop c2) (c_pop c2) (c_best c2) (c_fits c2) (c_muts c2) (c_bestfit c2) (c_gen c2) (c_ev c2))
      end
  end.

(** The events of calculateFitnesses that touch shared data: the calculation of
    member i by a worker, evaluator.Prepare, and the handling of the message of
    member i by the collecting loop.  A worker's calculation is one event: it works
    on the evaluator's own object (C36), and the steps inside it may be interleaved
    with the others without changing anything (C89, M_Fine). *)
Inductive act := Prep | Calc (i : nat) | Recv (i : nat).

(** The interleavings: all of them, as far as a message is handled after its
    calculation and after Prepare (program order of the main goroutine). *)
Definition valid_schedule (n : nat) (s : list act) : Prop :=
  (forall a, count_occ (fun x y : act => ltac:(decide equality; apply Nat.eq_dec)) s a =
     match a with Prep => 1 | Calc i | Recv i => if (i <? n)%nat then 1 else 0 end)%nat /\
  (forall l1 i l2, s = l1 ++ Recv i :: l2 -> In (Calc i) l1 /\ In Prep l1).

(** The results sent so far. *)
Definition results := list (nat * f64).
Definition result (r : results) (i : nat) : option f64 := option_map snd (find (fun x => (fst x =? i)%nat) r).

(** One event (simple.go:63-70, 76, 80-81; modifiedgenetic.go:109-116, 122, 126-127). *)
Definition do_act (cr : core E * results) (a : act) : option (core E * results) :=
  let (c, r) := cr in
  match a with
  | Prep => option_map (fun e => (with_ev c e, r)) (ev_prepare ev (c_ev c))
  | Calc i =>
      match nth_error (c_pop c) i, nth_error (c_muts c) i with
      | Some p, Some m => option_map (fun ef => (with_ev c (fst ef), (i, snd ef) :: r)) (ev_calc ev (c_ev c) i (buf c p) m)
      | _, _ => None
      end
  | Recv i =>
      match result r i with
      | None => None
      | Some f =>
          match put i f (c_fits c), ev_update ev (c_ev c) i with
          | Some fs, Some e => Some (with_ev (with_fits c fs) e, r)
          | _, _ => None
          end
      end
  end.
Fixpoint do_acts (s : list act) (cr : core E * results) : option (core E * results) :=
  match s with [] => Some cr | a :: s' => match do_act cr a with None => None | Some cr' => do_acts s' cr' end end.

(** Swap (simple.go:139-143; modifiedgenetic.go:240-244). *)
Definition swap_at {A} (i j : nat) (l : list A) : option (list A) :=
  match nth_error l i, nth_error l j with Some x, Some y => Some (set_nth j x (set_nth i y l)) | _, _ => None end.
Definition swap_members (c : core E) (ij : nat * nat) : option (core E) :=
  let (i, j) := ij in
  match swap_at i j (c_fits c), swap_at i j (c_pop c), ev_swap ev (c_ev c) i j with
  | Some f, Some p, Some e => Some (Core (c_store c) p (c_newpop c) (c_best c) f (c_muts c) (c_bestfit c) (c_gen c) e)
  | _, _, _ => None
  end.
(** sort.Sort: some sequence of calls of Swap. *)
Fixpoint do_swaps (sw : list (nat * nat)) (c : core E) : option (core E) :=
  match sw with [] => Some c | ij :: sw' => match swap_members c ij with None => None | Some c' => do_swaps sw' c' end end.

(** Less (simple.go:135-137; modifiedgenetic.go:236-238) and what sort.Sort guarantees. *)
Definition less (fits : list f64) (i j : nat) : bool := flt (nth j fits f0) (nth i fits f0).
Definition sorted (fits : list f64) : Prop := forall i j, (i < j < length fits)%nat -> less fits j i = false.

(** updateFitnesses (simple.go:91-96; modifiedgenetic.go:209-215) after the sort. *)
Definition take_best (c : core E) : option (core E) :=
  match nth_error (c_pop c) 0, nth_error (c_fits c) 0 with
  | Some p, Some f => option_map (fun st => Core st (c_pop c) (c_newpop c) (c_best c) (c_fits c) (c_muts c) f (c_gen c) (c_ev c)) (buf_set (c_store c) (c_best c) p)
  | _, _ => None
  end.
Definition update_fitnesses (sw : list (nat * nat)) (c : core E) : option (core E) :=
  match do_swaps sw c with None => None | Some c' => take_best c' end.

Definition next_gen (c : core E) : core E := Core (c_store c) (c_pop c) (c_newpop c) (c_best c) (c_fits c) (c_muts c) (c_bestfit c) (c_gen c + 1)%Z (c_ev c).

(** simple.calculateFitnesses (simple.go:54-88).  With an empty population the
    receive loop never ends. *)
Definition simple_calc (s : list act) (c : core E) : option (core E * results) :=
  if (length (c_pop c) =? 0)%nat then None else do_acts s (c, []).

(** simple.Step (simple.go:38-51).  The second result are the fitnesses calculated. *)
Definition simple_step (cutoff : nat) (mu : mutator) (s : list act) (sw : list (nat * nat)) (c : core E) : option (core E * results) :=
  match new_generation mu cutoff (length (c_pop c)) c with
  | None => None
  | Some c1 =>
      match simple_calc s c1 with
      | None => None
      | Some (c2, r) => option_map (fun c3 => (next_gen c3, r)) (update_fitnesses sw c2)
      end
  end.

(** The initialisation shared by NewSimple (simple.go:148-166) and NewModifiedGenetic
    (modifiedgenetic.go:250-270): [groups] are the results of newPointGroup. *)
Definition init_core (groups : list (list npoint)) (e : E) : option (core E) :=
  match groups with
  | [] => None
  | g :: _ =>
      let n := length groups in
      Some (Core (groups ++ groups ++ [g]) (seq 0 n) (seq n n) (n + n) (repeat f0 n) (repeat [] n) f0 0 e)
  end.
(** NewSimple (simple.go:146-173). *)
Definition new_simple (groups : list (list npoint)) (e : E) (s : list act) (sw : list (nat * nat)) : option (core E * results) :=
  match init_core groups e with
  | None => None
  | Some c1 =>
      match simple_calc s c1 with
      | None => None
      | Some (c2, r) => option_map (fun c3 => (c3, r)) (update_fitnesses sw c2)
      end
  end.

(** Best and Stats (simple.go:123-129; modifiedgenetic.go:222-228): Best returns the
    slice, i.e. its address. *)
Definition best_slice (c : core E) : nat := c_best c.
Definition stats_best (c : core E) : f64 := c_bestfit c.
Definition stats_gen (c : core E) : Z := c_gen c.

(* ------------------------------------------------------------------ *)
(** * modifiedGenetic *)

(** beneficialMutations[base] (algorithm/data.go:12-15): the pairs of Mutations[k] and Indexes[k]. *)
Definition bmuts := list (mut * nat).
Record mgen := MGen { g_core : core E; g_ben : list bmuts }.

(** getBase (modifiedgenetic.go:218-220). *)
Definition get_base (cutoff i : nat) : option nat := if (cutoff =? 0)%nat then None else Some (i mod cutoff)%nat.

(** The body of setBeneficial for one mutation (modifiedgenetic.go:146-170). *)
Fixpoint find_mut (k : nat) (idx : nat) (b : bmuts) : option (nat * nat) :=
  match b with
  | [] => None
  | (o, src) :: t => if (m_idx o =? idx)%nat then Some (k, src) else find_mut (S k) idx t
  end.
Definition add_mut (fits : list f64) (index : nat) (b : bmuts) (m : mut) : bmuts :=
  match find_mut 0 (m_idx m) b with
  | None => b ++ [(m, index)]
  | Some (k, other) => if flt (nth other fits f0) (nth index fits f0) then set_nth k (m, index) b else b
  end.

(** setBeneficial (modifiedgenetic.go:143-171). *)
Definition set_beneficial (cutoff index : nat) (fits : list f64) (muts : list (list mut)) (ben : list bmuts) : option (list bmuts) :=
  match get_base cutoff index, nth_error muts index with
  | Some b, Some ms =>
      match nth_error ben b with
      | None => match ms with [] => Some ben | _ => None end
      | Some bm => Some (set_nth b (fold_left (add_mut fits index) ms bm) ben)
      end
  | _, _ => None
  end.

(** The events of calculateFitnesses (modifiedgenetic.go:99-140). *)
Definition g_act (cutoff : nat) (gr : mgen * results) (a : act) : option (mgen * results) :=
  let (g, r) := gr in
  match do_act (g_core g, r) a with
  | None => None
  | Some (c, r') =>
      match a with
      | Recv i =>
          match get_base cutoff i with
          | None => None
          | Some b =>
              if (b <? length (c_fits c))%nat then
                if flt (nth b (c_fits c) f0) (nth i (c_fits c) f0) then
                  option_map (fun ben => (MGen c ben, r')) (set_beneficial cutoff i (c_fits c) (c_muts c) (g_ben g))
                else Some (MGen c (g_ben g), r')
              else None
          end
      | _ => Some (MGen c (g_ben g), r')
      end
  end.
Fixpoint g_acts (cutoff : nat) (s : list act) (gr : mgen * results) : option (mgen * results) :=
  match s with [] => Some gr | a :: s' => match g_act cutoff gr a with None => None | Some gr' => g_acts cutoff s' gr' end end.
Definition g_calc (cutoff : nat) (s : list act) (g : mgen) : option (mgen * results) :=
  if (length (c_pop (g_core g)) <=? cutoff)%nat then None else g_acts cutoff s (g, []).

(** Applying the mutations (modifiedgenetic.go:186-190). *)
Definition apply_muts (ms : list mut) (pts : list npoint) : option (list npoint) :=
  fold_left (fun o m => match o with None => None | Some l => put (m_idx m) (m_new m) l end) ms (Some pts).

(** The body of combineMutations for member i (modifiedgenetic.go:177-204); the second
    component collects the fitnesses calculated. *)
Definition combine_one (cutoff i : nat) (gr : mgen * results) : option (mgen * results) :=
  let (g, r) := gr in
  let c := g_core g in
  match put i [] (c_muts c), get_base cutoff i, nth_error (c_pop c) i with
  | Some m0, Some b, Some a =>
      match nth_error (g_ben g) b with
      | None => None
      | Some [] => option_map (fun f => (MGen (with_muts (with_fits c f) m0) (g_ben g), r)) (put i f0 (c_fits c))
      | Some bm =>
          match nth_error (c_pop c) b, ev_base ev (c_ev c) i b with
          | Some ab, Some e1 =>
              match buf_set (c_store c) a ab with
              | None => None
              | Some st1 =>
                  match apply_muts (map fst bm) (nth a st1 []) with
                  | None => None
                  | Some pts =>
                      match ev_calc ev e1 i pts (map fst bm) with
                      | None => None
                      | Some (e2, f) =>
                          match put i f (c_fits c), ev_update ev e2 i with
                          | Some fs, Some e3 =>
                              Some (MGen (with_ev (with_muts (with_fits (with_store c (set_nth a pts st1)) fs) (set_nth i (map fst bm) m0)) e3) (g_ben g), (i, f) :: r)
                          | _, _ => None
                          end
                      end
                  end
              end
          | _, _ => None
          end
      end
  | _, _, _ => None
  end.
(** combineMutations (modifiedgenetic.go:174-206): members i, ..., i+n-1. *)
Fixpoint combine_muts (cutoff n i : nat) (gr : mgen * results) : option (mgen * results) :=
  match n with O => Some gr | S n' => match combine_one cutoff i gr with None => None | Some gr' => combine_muts cutoff n' (S i) gr' end end.

(** modifiedGenetic.Step (modifiedgenetic.go:41-57). *)
Definition genetic_step (cutoff : nat) (mu : mutator) (s : list act) (sw : list (nat * nat)) (g : mgen) : option (mgen * results) :=
  let n := length (c_pop (g_core g)) in
  match new_generation mu cutoff (n - cutoff) (g_core g) with
  | None => None
  | Some c1 =>
      match g_calc cutoff s (MGen c1 (map (fun _ => []) (g_ben g))) with
      | None => None
      | Some gr2 =>
          match combine_muts cutoff cutoff (n - cutoff) gr2 with
          | None => None
          | Some (g3, r) => option_map (fun c => (MGen (next_gen c) (g_ben g3), r)) (update_fitnesses sw (g_core g3))
          end
      end
  end.

(** NewModifiedGenetic (modifiedgenetic.go:247-277). *)
Definition new_genetic (cutoff : nat) (groups : list (list npoint)) (e : E) (s : list act) (sw : list (nat * nat)) : option (mgen * results) :=
  match init_core groups e with
  | None => None
  | Some c1 =>
      match g_calc cutoff s (MGen c1 (repeat [] cutoff)) with
      | None => None
      | Some (g2, r) => option_map (fun c => (MGen c (g_ben g2), r)) (update_fitnesses sw (g_core g2))
      end
  end.
End Algo.
Arguments mgen : clear implicits.
