(** Model of the evaluators NewOne and NewMany (algorithm/evaluator/evaluators.go), and of
    the fitness functions of the package as plain fitness.Functions under them. *)
From Coq Require Import ZArith List Bool.
From Verif Require Import GoNum M_Norm M_Slice M_Geom M_Delaunay M_Algo M_Fitness M_Voronoi M_Polygons.
Import ListNotations.

(** A fitness.Function (fitness/function.go:11-14) with a state of type A: Calculate, with the
    two fields of PointsData (fitness/function.go:17-20) as arguments.  [None] is a panic. *)
Definition ffun (A : Type) := A -> list npoint -> list mut -> option (A * f64).

(** A function without state. *)
Definition pure (phi : list npoint -> f64) : ffun unit := fun _ pts _ => Some (tt, phi pts).

(** type one (evaluators.go:28-52): SetBase, Swap, Prepare and Update do nothing, Get
    returns the same function every time.  The calculations of the workers are one event
    each here, so a function with a state is not covered by this model if the workers
    run at the same time. *)
Definition one {A} (calc : ffun A) : evaluator A :=
  Ev (fun a _ pts muts => calc a pts muts) (fun a _ => Some a) (fun a => Some a) (fun a _ _ => Some a) (fun a _ _ => Some a).

(** type many (evaluators.go:55-74): Get(i) is evaluators[i]; nothing else does anything. *)
Definition many {A} (calc : ffun A) : evaluator (list A) :=
  Ev (fun fs i pts muts =>
        match nth_error fs i with
        | None => None
        | Some a => option_map (fun af => (set_nth i (fst af) fs, snd af)) (calc a pts muts)
        end)
     (fun fs _ => Some fs) (fun fs => Some fs) (fun fs _ _ => Some fs) (fun fs _ _ => Some fs).

(** NewMany (evaluators.go:76-84): n calls of newEvaluator, which returns a new function in
    the state [a] each time. *)
Definition new_many {A} (a : A) (n : nat) : list A := repeat a n.

(** A function of TrianglesImageFunctions or NewTrianglesImageFunction (triangles.go:39-160,
    199-208) on which nobody calls SetBase and SetCache: Base stays nil and TriangleCache is
    the initial array or the own one. *)
Definition tri_alone (im : fimg) (srt : point -> list point -> option (list point)) : ffun tfun :=
  fun f pts muts => calc_fun im srt [] f None pts muts.
(** The same for a function of PolygonsImageFunctions (polygons.go:31-155). *)
Definition poly_alone (im : fimg) (srt : sorter) (hsrt : point -> list point -> option (list point)) : ffun pfun :=
  fun f pts muts => calc_pfun im srt hsrt [] f None pts muts.
