(** Specifications for the evaluators NewOne and NewMany. *)
From Coq Require Import List Bool.
From Verif Require Import GoNum M_Norm M_Algo M_Generic.
Import ListNotations.

(** The fitnesses one function returns for a sequence of calls of Calculate. *)
Fixpoint calls {A} (calc : ffun A) (a : A) (l : list (list npoint * list mut)) : option (list f64) :=
  match l with
  | [] => Some []
  | (pts, muts) :: t =>
      match calc a pts muts with
      | None => None
      | Some (a', f) => option_map (cons f) (calls calc a' t)
      end
  end.

(** The fitness a new function returns for the points [pts]. *)
Definition own_fitness {A} (calc : ffun A) (a : A) (pts : list npoint) : option f64 := option_map snd (calc a pts []).
