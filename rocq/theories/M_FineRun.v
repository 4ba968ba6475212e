(** Whole runs in which the steps of the workers are interleaved: NewSimple, simple.Step,
    NewModifiedGenetic and modifiedGenetic.Step with calculateFitnesses as in M_Fine, for the
    triangle functions. *)
From Coq Require Import ZArith List Bool.
From Verif Require Import GoNum M_Norm M_Slice M_Geom M_Image M_Raster M_Delaunay M_Algo M_Fitness M_Fine S_Fine.
Import ListNotations.
Local Open Scope nat_scope.

Section Runs.
Context (im : fimg) (srt : point -> list point -> option (list point)).
Notation ev := (parallel im srt).

(** simple.calculateFitnesses (algorithm/simple.go:54-88) from c: the members are as many as the
    workers, all steps are done; with an empty population the receive loop never ends. *)
Definition fine_calc (c : core par) (st : fstate) : Prop :=
  length (c_pop c) <> 0 /\ exists t, fine_run im srt (fine_start (length (c_pop c)) c) t st /\ finished st.

(** NewSimple (algorithm/simple.go:146-173). *)
Inductive fine_new_simple (groups : list (list npoint)) (e : par) (sw : list (nat * nat)) : core par -> results -> Prop :=
| fns c1 st c : init_core groups e = Some c1 -> fine_calc c1 st -> update_fitnesses ev sw (fs_core st) = Some c -> fine_new_simple groups e sw c (fs_res st).
(** simple.Step (algorithm/simple.go:38-51). *)
Inductive fine_simple_step (cutoff : nat) (mu : mutator) (sw : list (nat * nat)) (c : core par) : core par -> results -> Prop :=
| fss c1 st c2 : new_generation ev mu cutoff (length (c_pop c)) c = Some c1 -> fine_calc c1 st -> update_fitnesses ev sw (fs_core st) = Some c2 ->
    fine_simple_step cutoff mu sw c (next_gen c2) (fs_res st).

(** What the collecting loop of modifiedGenetic does when Update has returned
    (algorithm/modifiedgenetic.go:130-133). *)
Definition note_one (cutoff i : nat) (c : core par) (ben : list bmuts) : option (list bmuts) :=
  match get_base cutoff i with
  | None => None
  | Some b => if b <? length (c_fits c) then
                if flt (nth b (c_fits c) f0) (nth i (c_fits c) f0) then set_beneficial cutoff i (c_fits c) (c_muts c) ben else Some ben
              else None
  end.
(** One step of modifiedGenetic.calculateFitnesses (algorithm/modifiedgenetic.go:99-140).  The
    comparison and setBeneficial are joined to the last assignment of Update: they read the
    fitnesses and the mutations, which no worker writes, and write beneficialMutations, which no
    worker reads. *)
Definition gfine_step (cutoff : nat) (x : fstate * list bmuts) (a : fact) : option (fstate * list bmuts) :=
  match fine_step im srt (fst x) a with
  | None => None
  | Some st' =>
      match a, fs_main (fst x) with
      | FUpd, Some (i, []) => option_map (pair st') (note_one cutoff i (fs_core st') (snd x))
      | _, _ => Some (st', snd x)
      end
  end.
Inductive gfine_run (cutoff : nat) : fstate * list bmuts -> list fact -> fstate * list bmuts -> Prop :=
| gfr_nil x : gfine_run cutoff x [] x
| gfr_snoc x t x1 a x2 : gfine_run cutoff x t x1 -> enabled (fst x1) a -> gfine_step cutoff x1 a = Some x2 -> gfine_run cutoff x (t ++ [a]) x2.
(** modifiedGenetic.calculateFitnesses (algorithm/modifiedgenetic.go:99-140), all steps done. *)
Definition gfine_calc (cutoff : nat) (g : mgen par) (st : fstate) (ben : list bmuts) : Prop :=
  cutoff < length (c_pop (g_core g)) /\
  exists t, gfine_run cutoff (fine_start (length (c_pop (g_core g)) - cutoff) (g_core g), g_ben g) t (st, ben) /\ finished st.

(** NewModifiedGenetic (algorithm/modifiedgenetic.go:247-277). *)
Inductive fine_new_genetic (cutoff : nat) (groups : list (list npoint)) (e : par) (sw : list (nat * nat)) : mgen par -> results -> Prop :=
| fng c1 st ben c : init_core groups e = Some c1 -> gfine_calc cutoff (MGen c1 (repeat [] cutoff)) st ben -> update_fitnesses ev sw (fs_core st) = Some c ->
    fine_new_genetic cutoff groups e sw (MGen c ben) (fs_res st).
(** modifiedGenetic.Step (algorithm/modifiedgenetic.go:41-57); the members combineMutations makes
    are evaluated by the calling goroutine, when the workers are done. *)
Inductive fine_genetic_step (cutoff : nat) (mu : mutator) (sw : list (nat * nat)) (g : mgen par) : mgen par -> results -> Prop :=
| fgs c1 st ben g3 r c : new_generation ev mu cutoff (length (c_pop (g_core g)) - cutoff) (g_core g) = Some c1 ->
    gfine_calc cutoff (MGen c1 (map (fun _ => []) (g_ben g))) st ben ->
    combine_muts ev cutoff cutoff (length (c_pop (g_core g)) - cutoff) (MGen (fs_core st) ben, fs_res st) = Some (g3, r) ->
    update_fitnesses ev sw (g_core g3) = Some c -> fine_genetic_step cutoff mu sw g (MGen (next_gen c) (g_ben g3)) r.
End Runs.
