(** What the program guarantees about the triangulations it keeps (C59), and runs of the
    program without assumptions on the fitnesses (C60). *)
From Coq Require Import ZArith List Bool Permutation.
From Flocq Require Import IEEE754.BinarySingleNaN.
From Verif Require Import GoNum M_Norm M_Slice M_Geom S_Geom M_Image S_Image M_Raster S_Raster S_Norm M_Delaunay S_Delaunay S_Remove M_Algo S_Algo M_Fitness S_Fitness S_Run L_Tiles P_Delaunay P_Remove.
Import ListNotations.
Open Scope Z_scope.

(** [d] is a Delaunay triangulation of the points [Q] of a w x h image: the triangles in
    use have area and tile the enclosing triangle, no point of [Q] lies inside the
    circumcircle of one, their corners are points of [Q] and corners of the enclosing
    triangle, IterTriangles reports those between points of [Q] only, and no two of the
    reported ones share a pixel. *)
Record delaunay_triangulation (w h : Z) (Q : list point) (d : delaunay) : Prop := {
  del_empty : forall t p, In t (used d) -> In p Q -> ~ in_circumcircle (d_a t) (d_b t) (d_c t) p;
  del_area : forall t, In t (used d) -> orient (d_a t) (d_b t) (d_c t) <> 0;
  del_cover : forall X Y M, 0 < M -> (let s := new_super_triangle w h in loc_inside X Y M (d_a s) (d_b s) (d_c s)) ->
    exists l1 t l2, used d = l1 ++ t :: l2 /\ loc_within X Y M (d_a t) (d_b t) (d_c t) /\
      forall u, In u (l1 ++ l2) -> ~ loc_inside X Y M (d_a u) (d_b u) (d_c u);
  del_neighbour : forall t a b, In t (used d) -> left_of a b t ->
    (exists u, In u (used d) /\ left_of b a u) \/
    (let s := new_super_triangle w h in In a [d_a s; d_b s; d_c s] /\ In b [d_a s; d_b s; d_c s]);
  del_corners : forall t, In t (iter_triangles d) -> In (d_a t) Q /\ In (d_b t) Q /\ In (d_c t) Q;
  del_frame : forall t v, In t (used d) -> In v [d_a t; d_b t; d_c t] ->
    In v Q \/ (let s := new_super_triangle w h in In v [d_a s; d_b s; d_c s]);
  del_shown : forall t, In t (used d) -> In (d_a t) Q -> In (d_b t) Q -> In (d_c t) Q -> In t (iter_triangles d);
  del_all : forall p, In p Q -> exists t, In t (used d) /\ In p [d_a t; d_b t; d_c t];
  del_pixels : NoDup (flat_map (fun t => dda_pixels (Tri (d_a t) (d_b t) (d_c t))) (iter_triangles d));
  del_copies : forall q, in_image w h q -> copies_of (d_pmap d) q = Some (mult Q q) }.

(** The function at position [i] has no pending base and keeps a Delaunay triangulation of
    the points [pts], rounded to pixels; [f] is the fitness of that triangulation. *)
Definition keeps_delaunay (im : fimg) (p : par) (i : nat) (pts : list npoint) (f : f64) : Prop :=
  exists id t d, at_pos p i = Some (id, t) /\ tf_tri t = Some d /\ tf_base t = None /\
    delaunay_triangulation (fi_w im) (fi_h im) (map (mut_point im) pts) d /\ plain_fitness im d = Some f.

(** sort.Slice on the hull around a removed point: always a permutation, and ascending if
    the comparison orders the hull. *)
Definition hull_sort (srt : point -> list point -> option (list point)) : Prop :=
  (forall p q q', srt p q = Some q' -> Permutation q q') /\ sorts_hulls srt.

(** [fi] is the data of a fitness function of the image [im] with blocks of [bs] pixels. *)
Definition image_function (im : idata) (bs : Z) (fi : fimg) : Prop :=
  good_image im /\ usual_size (i_w im) (i_h im) /\ 1 <= bs <= 16 /\ bs <= i_w im + 1 /\ bs <= i_h im + 1 /\
  exists fuel, 2 ^ 56 <= Z.of_nat fuel /\ new_fimg fuel im bs = Some fi.

(** What sort.Sort promises about the fitnesses: they are in order, unless there is a NaN. *)
Definition sort_sorts (fits : list f64) : Prop := (forall f, In f fits -> is_nan f = false) -> sorted fits.
(** The swaps of sort.Sort are of positions of the population. *)
Definition swaps_within (n : nat) (sw : list (nat * nat)) : Prop := forall ij, In ij sw -> (fst ij < n)%nat /\ (snd ij < n)%nat.

(** NewSimple on a new evaluator with [n] groups of [l] points, then Steps. *)
Section Program.
Context (im : fimg) (srt : point -> list point -> option (list point)) (cutoff n l pow2 : nat).
Definition point_groups (groups : list (list npoint)) : Prop := length groups = n /\ Forall (fun g => length g = l /\ Forall pt_in_unit g) groups.
Inductive simple_program : core par -> Prop :=
| sp_new groups s sw c r : point_groups groups -> valid_schedule n s ->
    new_simple (parallel im srt) groups (new_parallel n pow2) s sw = Some (c, r) -> sort_sorts (c_fits c) -> simple_program c
| sp_step c mu s sw c' r : simple_program c -> mutator_ok mu -> valid_schedule n s ->
    simple_step (parallel im srt) cutoff mu s sw c = Some (c', r) -> sort_sorts (c_fits c') -> simple_program c'.
End Program.
