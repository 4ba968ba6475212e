(** Runs of the program over the polygon fitness functions with no assumption on the
    fitnesses, and the only way they can end (C69). *)
From Coq Require Import ZArith List Bool Permutation.
From Verif Require Import GoNum M_Norm M_Slice M_Geom S_Norm M_Delaunay M_Algo S_Algo M_Image M_Fitness S_Fitness S_Run2 M_Voronoi S_Voronoi M_Polygons S_Polygons P_Voronoi.
Import ListNotations.
Open Scope Z_scope.

(** NewSimple on new polygon functions with [n] groups of [l] points, then Steps. *)
Section Program.
Context (im : fimg) (srt : sorter) (hsrt : point -> list point -> option (list point)) (cutoff n l pow2 : nat).
Inductive polygon_program : core ppar -> Prop :=
| pg_new groups s sw c r : point_groups n l groups -> valid_schedule n s ->
    new_simple (pparallel im srt hsrt) groups (new_pparallel n pow2) s sw = Some (c, r) -> sort_sorts (c_fits c) -> polygon_program c
| pg_step c mu s sw c' r : polygon_program c -> mutator_ok mu -> valid_schedule n s ->
    simple_step (pparallel im srt hsrt) cutoff mu s sw c = Some (c', r) -> sort_sorts (c_fits c') -> polygon_program c'.
End Program.

(** Among the pixels of the points [pts] there are some whose Voronoi diagram has a cell
    with two vertices that the comparison of voronoi.go:133-159 panics on. *)
Definition cell_comparison_panics (im : fimg) (pts : list npoint) : Prop :=
  exists Q q, (forall p, In p Q -> In p (map (mut_point im) pts)) /\ In q Q /\ comparison_panics (fi_w im) (fi_h im) Q q.

(** The functions of a usual image, its sorts, at most 32765 points, caches of 2 to 2^62
    entries, and at least one member. *)
Definition usual_program (im : idata) (bs : Z) (fi : fimg) (srt : sorter) (hsrt : point -> list point -> option (list point)) (cutoff n l pow2 : nat) : Prop :=
  image_function im bs fi /\ sorter_ok srt /\ hull_sort hsrt /\ Z.of_nat l <= 32765 /\ cutoff <> 0%nat /\ (1 <= pow2 <= 62)%nat /\ (0 < n)%nat.
