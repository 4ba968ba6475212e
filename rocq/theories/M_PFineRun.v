(** Whole runs in which the steps of the workers are interleaved: NewSimple, simple.Step,
    NewModifiedGenetic and modifiedGenetic.Step with calculateFitnesses as in M_PFine, for the
    polygon functions. *)
From Coq Require Import ZArith List Bool.
From Verif Require Import GoNum M_Norm M_Slice M_Geom M_Image M_Raster M_Delaunay M_Algo M_Fitness M_Voronoi M_Polygons M_PFine S_PFine.
Import ListNotations.
Local Open Scope nat_scope.

Section Runs.
Context (im : fimg) (srt : sorter) (hsrt : point -> list point -> option (list point)).
Notation ev := (pparallel im srt hsrt).

(** simple.calculateFitnesses (algorithm/simple.go:54-88) from c: the members are as many as the
    workers, all steps are done; with an empty population the receive loop never ends. *)
Definition vfine_calc (c : core ppar) (st : vstate) : Prop :=
  length (c_pop c) <> 0 /\ exists t, vfine_run im srt hsrt (vfine_start (length (c_pop c)) c) t st /\ vfinished st.

(** NewSimple (algorithm/simple.go:146-173). *)
Inductive vfine_new_simple (groups : list (list npoint)) (e : ppar) (sw : list (nat * nat)) : core ppar -> results -> Prop :=
| vns c1 st c : init_core groups e = Some c1 -> vfine_calc c1 st -> update_fitnesses ev sw (vs_core st) = Some c -> vfine_new_simple groups e sw c (vs_res st).
(** simple.Step (algorithm/simple.go:38-51). *)
Inductive vfine_simple_step (cutoff : nat) (mu : mutator) (sw : list (nat * nat)) (c : core ppar) : core ppar -> results -> Prop :=
| vss c1 st c2 : new_generation ev mu cutoff (length (c_pop c)) c = Some c1 -> vfine_calc c1 st -> update_fitnesses ev sw (vs_core st) = Some c2 ->
    vfine_simple_step cutoff mu sw c (next_gen c2) (vs_res st).

(** What the collecting loop of modifiedGenetic does when Update has returned
    (algorithm/modifiedgenetic.go:130-133). *)
Definition vnote_one (cutoff i : nat) (c : core ppar) (ben : list bmuts) : option (list bmuts) :=
  match get_base cutoff i with
  | None => None
  | Some b => if b <? length (c_fits c) then
                if flt (nth b (c_fits c) f0) (nth i (c_fits c) f0) then set_beneficial cutoff i (c_fits c) (c_muts c) ben else Some ben
              else None
  end.
(** One step of modifiedGenetic.calculateFitnesses (algorithm/modifiedgenetic.go:99-140).  The
    comparison and setBeneficial are joined to the last assignment of Update: they read the
    fitnesses and the mutations, which no worker writes, and write beneficialMutations, which no
    worker reads. *)
Definition gvfine_step (cutoff : nat) (x : vstate * list bmuts) (a : vact) : option (vstate * list bmuts) :=
  match vfine_step im srt hsrt (fst x) a with
  | None => None
  | Some st' =>
      match a, vs_main (fst x) with
      | VUpd, Some (i, []) => option_map (pair st') (vnote_one cutoff i (vs_core st') (snd x))
      | _, _ => Some (st', snd x)
      end
  end.
Inductive gvfine_run (cutoff : nat) : vstate * list bmuts -> list vact -> vstate * list bmuts -> Prop :=
| gvr_nil x : gvfine_run cutoff x [] x
| gvr_snoc x t x1 a x2 : gvfine_run cutoff x t x1 -> venabled (fst x1) a -> gvfine_step cutoff x1 a = Some x2 -> gvfine_run cutoff x (t ++ [a]) x2.
(** modifiedGenetic.calculateFitnesses (algorithm/modifiedgenetic.go:99-140), all steps done. *)
Definition gvfine_calc (cutoff : nat) (g : mgen ppar) (st : vstate) (ben : list bmuts) : Prop :=
  cutoff < length (c_pop (g_core g)) /\
  exists t, gvfine_run cutoff (vfine_start (length (c_pop (g_core g)) - cutoff) (g_core g), g_ben g) t (st, ben) /\ vfinished st.

(** NewModifiedGenetic (algorithm/modifiedgenetic.go:247-277). *)
Inductive vfine_new_genetic (cutoff : nat) (groups : list (list npoint)) (e : ppar) (sw : list (nat * nat)) : mgen ppar -> results -> Prop :=
| vng c1 st ben c : init_core groups e = Some c1 -> gvfine_calc cutoff (MGen c1 (repeat [] cutoff)) st ben -> update_fitnesses ev sw (vs_core st) = Some c ->
    vfine_new_genetic cutoff groups e sw (MGen c ben) (vs_res st).
(** modifiedGenetic.Step (algorithm/modifiedgenetic.go:41-57); the members combineMutations makes
    are evaluated by the calling goroutine, when the workers are done. *)
Inductive vfine_genetic_step (cutoff : nat) (mu : mutator) (sw : list (nat * nat)) (g : mgen ppar) : mgen ppar -> results -> Prop :=
| vgs c1 st ben g3 r c : new_generation ev mu cutoff (length (c_pop (g_core g)) - cutoff) (g_core g) = Some c1 ->
    gvfine_calc cutoff (MGen c1 (map (fun _ => []) (g_ben g))) st ben ->
    combine_muts ev cutoff cutoff (length (c_pop (g_core g)) - cutoff) (MGen (vs_core st) ben, vs_res st) = Some (g3, r) ->
    update_fitnesses ev sw (g_core g3) = Some c -> vfine_genetic_step cutoff mu sw g (MGen (next_gen c) (g_ben g3)) r.
End Runs.
