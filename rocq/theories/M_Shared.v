(** NewSimple and NewModifiedGenetic with a newPointGroup that may return the same group more than
    once.  M_Algo.init_core gives every member an array of its own. *)
From Coq Require Import ZArith List Bool Arith.
From Verif Require Import GoNum M_Norm M_Algo.
Import ListNotations.

Section Shared.
Context {E : Type} (ev : evaluator E).
(** The allocation in NewSimple (algorithm/simple.go:148-166) and NewModifiedGenetic
    (algorithm/modifiedgenetic.go:250-270): [arrs] are the arrays newPointGroup returns, and its
    i-th result is array [nth i refs]; newPopulation and best are copies. *)
Definition init_at (arrs : list (list npoint)) (refs : list nat) (e : E) : option (core E) :=
  match refs with
  | [] => None
  | a :: _ =>
      let n := length refs in let k := length arrs in
      Some (Core (arrs ++ map (fun r => nth r arrs []) refs ++ [nth a arrs []]) refs (seq k n) (k + n) (repeat f0 n) (repeat [] n) f0 0 e)
  end.
(** NewSimple (simple.go:146-173). *)
Definition new_simple_at (arrs : list (list npoint)) (refs : list nat) (e : E) (s : list act) (sw : list (nat * nat)) : option (core E * results) :=
  match init_at arrs refs e with
  | None => None
  | Some c1 =>
      match simple_calc ev s c1 with
      | None => None
      | Some (c2, r) => option_map (fun c3 => (c3, r)) (update_fitnesses ev sw c2)
      end
  end.
(** NewModifiedGenetic (modifiedgenetic.go:247-277). *)
Definition new_genetic_at (cutoff : nat) (arrs : list (list npoint)) (refs : list nat) (e : E) (s : list act) (sw : list (nat * nat)) : option (mgen E * results) :=
  match init_at arrs refs e with
  | None => None
  | Some c1 =>
      match g_calc ev cutoff s (MGen c1 (repeat [] cutoff)) with
      | None => None
      | Some (g2, r) => option_map (fun c => (MGen c (g_ben g2), r)) (update_fitnesses ev sw (g_core g2))
      end
  end.
End Shared.
