(** Specification: runs that differ only in how sort.Sort sorts. *)
From Coq Require Import List Arith.
From Verif Require Import GoNum M_Norm M_Algo.
Import ListNotations.

(** The fitnesses fall strictly: no two are equal (and none is NaN). *)
Definition no_ties (fits : list f64) : Prop := forall i j, i < j < length fits -> flt (nth j fits f0) (nth i fits f0) = true.

(** Two runs of simple with the same groups, mutations and schedules.  Both sort, by different swaps;
    the first without ties. *)
Section Twins.
Context {E : Type} (ev : evaluator E) (cutoff : nat).
Inductive twins (groups : list (list npoint)) (e : E) : core E * results -> core E * results -> Prop :=
| tw_new s sw sw' c c' r r' : new_simple ev groups e s sw = Some (c, r) -> new_simple ev groups e s sw' = Some (c', r') -> no_ties (c_fits c) -> sorted (c_fits c') -> twins groups e (c, r) (c', r')
| tw_step c c' q q' mu s sw sw' d d' r r' : twins groups e (c, q) (c', q') -> simple_step ev cutoff mu s sw c = Some (d, r) -> simple_step ev cutoff mu s sw' c' = Some (d', r') ->
    no_ties (c_fits d) -> sorted (c_fits d') -> twins groups e (d, r) (d', r').
(** The same for modifiedGenetic. *)
Inductive gtwins (groups : list (list npoint)) (e : E) : mgen E * results -> mgen E * results -> Prop :=
| gt_new s sw sw' g g' r r' : new_genetic ev cutoff groups e s sw = Some (g, r) -> new_genetic ev cutoff groups e s sw' = Some (g', r') -> no_ties (c_fits (g_core g)) -> sorted (c_fits (g_core g')) -> gtwins groups e (g, r) (g', r')
| gt_step g g' q q' mu s sw sw' d d' r r' : gtwins groups e (g, q) (g', q') -> genetic_step ev cutoff mu s sw g = Some (d, r) -> genetic_step ev cutoff mu s sw' g' = Some (d', r') ->
    no_ties (c_fits (g_core d)) -> sorted (c_fits (g_core d')) -> gtwins groups e (d, r) (d', r').
End Twins.
