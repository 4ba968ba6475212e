(** Specifications for the polygon fitness functions. *)
From Coq Require Import ZArith List Bool Permutation.
From Flocq Require Import IEEE754.BinarySingleNaN.
From Verif Require Import GoNum M_Norm S_Norm M_Slice M_Geom M_Image M_Raster S_Raster M_Delaunay S_Delaunay M_Algo S_Algo M_Fitness S_Fitness M_Voronoi S_Voronoi M_Polygons.
Import ListNotations.
Open Scope Z_scope.

(** The fitness of a diagram without any cache. *)
Definition plain_psum (im : fimg) (polys : list (list fpoint)) : option f64 :=
  foldM (fun d l => option_map (fadd d) (poly_diff im (fast_polygon l))) polys f0.
Definition plain_pfitness (im : fimg) (v : ivor) : option f64 :=
  option_map (fun d => fsub f1 (fdiv d (fi_max im))) (plain_psum im (iv_iter v)).

(** The evaluator that keeps diagrams and no cache. *)
Definition vor_ev (im : fimg) (srt : sorter) (hsrt : point -> list point -> option (list point)) : evaluator (keeper ivor) :=
  keep_ev (next_vor im srt hsrt) (plain_pfitness im).

(** All vertices of the polygons of the diagram lie in the frame of the image. *)
Definition framed (im : fimg) (v : ivor) : Prop := forall poly, In poly (iv_iter v) -> Forall (in_frame (fi_w im) (fi_h im)) poly.
(** ... of all diagrams kept. *)
Definition all_framed (im : fimg) (b : keeper ivor) : Prop := forall v o, In (Some v, o) (b_funs b) -> framed im v.
(** The diagrams kept in the course of the operations, whatever their fitness, are all
    framed. *)
Definition vor_only (im : fimg) (srt : sorter) (hsrt : point -> list point -> option (list point)) : evaluator (keeper ivor) :=
  keep_ev (next_vor im srt hsrt) (fun _ => Some f1).
Definition run_framed (im : fimg) (srt : sorter) (hsrt : point -> list point -> option (list point)) (n : nat) (ops : list eop) : Prop :=
  forall ops1 ops2 b fs, ops = ops1 ++ ops2 -> eop_run (vor_only im srt hsrt) (new_keeper ivor n) ops1 = Some (b, fs) -> all_framed im b.
