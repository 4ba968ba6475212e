(** Specification: a caller that writes into the points Best returned. *)
From Coq Require Import List.
From Verif Require Import GoNum M_Norm M_Slice M_Algo S_MemRun.
Import ListNotations.

(** What the caller does with the points: any function of them that keeps their number. *)
Definition edit := list npoint -> list npoint.
Definition keeps_number (f : edit) : Prop := forall pts, length (f pts) = length pts.
(** The caller writes through the slice Best returns (simple.go:123-125; modifiedgenetic.go:222-224). *)
Definition write_best {E} (f : edit) (c : core E) : core E := with_store c (set_nth (best_slice c) (f (buf c (best_slice c))) (c_store c)).

(** Constructor and Steps; before each Step the caller writes into Best. *)
Fixpoint simple_steps_edited {E} (ev : evaluator E) (cutoff : nat) (l : list (edit * step_data)) (cr : core E * list results) : option (core E * list results) :=
  match l with
  | [] => Some cr
  | (f, (mu, s, sw)) :: l' => match simple_step ev cutoff mu s sw (write_best f (fst cr)) with None => None | Some (c, r) => simple_steps_edited ev cutoff l' (c, snd cr ++ [r]) end
  end.
Definition simple_run_edited {E} (ev : evaluator E) (cutoff : nat) (groups : list (list npoint)) (e : E) (s : list act) (sw : list (nat * nat)) (l : list (edit * step_data)) : option (core E * list results) :=
  match new_simple ev groups e s sw with None => None | Some (c, r) => simple_steps_edited ev cutoff l (c, [r]) end.
Fixpoint genetic_steps_edited {E} (ev : evaluator E) (cutoff : nat) (l : list (edit * step_data)) (gr : mgen E * list results) : option (mgen E * list results) :=
  match l with
  | [] => Some gr
  | (f, (mu, s, sw)) :: l' => match genetic_step ev cutoff mu s sw (MGen (write_best f (g_core (fst gr))) (g_ben (fst gr))) with None => None | Some (g, r) => genetic_steps_edited ev cutoff l' (g, snd gr ++ [r]) end
  end.
Definition genetic_run_edited {E} (ev : evaluator E) (cutoff : nat) (groups : list (list npoint)) (e : E) (s : list act) (sw : list (nat * nat)) (l : list (edit * step_data)) : option (mgen E * list results) :=
  match new_genetic ev cutoff groups e s sw with None => None | Some (g, r) => genetic_steps_edited ev cutoff l (g, [r]) end.
