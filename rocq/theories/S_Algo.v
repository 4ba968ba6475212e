(** Specifications for the algorithms. *)
From Coq Require Import ZArith Reals List Bool Arith.
From Flocq Require Import IEEE754.BinarySingleNaN.
From Verif Require Import GoNum M_Norm M_Algo S_Norm.
Import ListNotations.

Section Spec.
Context {E : Type}.

(** The point groups of the population, in order. *)
Definition members (c : core E) : list (list npoint) := map (fun a => nth a (c_store c) []) (c_pop c).

(** n members of l points each, all buffers distinct arrays. *)
Record shape (n l : nat) (c : core E) : Prop := {
  sh_pop : length (c_pop c) = n; sh_new : length (c_newpop c) = n;
  sh_fits : length (c_fits c) = n; sh_muts : length (c_muts c) = n;
  sh_distinct : NoDup (c_best c :: c_pop c ++ c_newpop c);
  sh_range : forall a, In a (c_best c :: c_pop c ++ c_newpop c) -> (a < length (c_store c))%nat;
  sh_points : forall a, In a (c_best c :: c_pop c ++ c_newpop c) -> length (nth a (c_store c) []) = l }.

(** Every buffer of the algorithm holds points of the unit square. *)
Definition in_square (c : core E) : Prop :=
  forall a, In a (c_best c :: c_pop c ++ c_newpop c) -> Forall pt_in_unit (nth a (c_store c) []).
End Spec.

(** A mutation method: it keeps the number of points, stays in the unit square and
    reports exactly what it changed. *)
Definition mutator_ok (mu : mutator) : Prop := forall i pts, Forall pt_in_unit pts ->
  exact_log pts (fst (mu i pts)) (snd (mu i pts)) /\ Forall pt_in_unit (fst (mu i pts)).

(** [x] is at most [y] (both not NaN). *)
Definition not_above (x y : f64) : Prop := is_nan x = false /\ is_nan y = false /\ flt y x = false.

(** Member [i] (of those below [lim]) improved on base [b] and moved point [k] by [m]. *)
Definition candidate (cutoff lim : nat) (better : nat -> bool) (logs : nat -> list mut) (b k i : nat) (m : mut) : Prop :=
  (i < lim)%nat /\ (i mod cutoff = b)%nat /\ better i = true /\ In m (logs i) /\ m_idx m = k.

(** [pts] is [base] with every point that some improving member moved at the position
    given to it by a fittest such member. *)
Definition combines (cutoff lim : nat) (better : nat -> bool) (logs : nat -> list mut) (fits : list f64) (b : nat) (base pts : list npoint) : Prop :=
  length pts = length base /\ forall k,
  ((forall i m, ~ candidate cutoff lim better logs b k i m) -> nth_error pts k = nth_error base k) /\
  ((exists i m, candidate cutoff lim better logs b k i m) ->
   exists i m, candidate cutoff lim better logs b k i m /\ nth_error pts k = Some (m_new m) /\
     forall i' m', candidate cutoff lim better logs b k i' m' -> not_above (nth i' fits f0) (nth i fits f0)).

(** All states a user can bring the algorithms into: construction from n groups of l
    points of the unit square, then Steps with any mutation method satisfying its
    contract, any interleaving of the workers and any sort.Sort that sorts. *)
Section Histories.
Context {E : Type} (ev : evaluator E).
Inductive simple_history (cutoff n l : nat) : core E -> Prop :=
| sh_init groups e s sw c r : length groups = n -> Forall (fun g => length g = l /\ Forall pt_in_unit g) groups ->
    valid_schedule n s -> new_simple ev groups e s sw = Some (c, r) -> sorted (c_fits c) -> simple_history cutoff n l c
| sh_step c mu s sw c' r : simple_history cutoff n l c -> mutator_ok mu -> valid_schedule n s ->
    simple_step ev cutoff mu s sw c = Some (c', r) -> sorted (c_fits c') -> simple_history cutoff n l c'.
Inductive genetic_history (cutoff n l : nat) : mgen E -> Prop :=
| gh_init groups e s sw g r : length groups = n -> Forall (fun g => length g = l /\ Forall pt_in_unit g) groups ->
    valid_schedule (n - cutoff) s -> new_genetic ev cutoff groups e s sw = Some (g, r) -> sorted (c_fits (g_core g)) -> genetic_history cutoff n l g
| gh_step g mu s sw g' r : genetic_history cutoff n l g -> mutator_ok mu -> valid_schedule (n - cutoff) s ->
    genetic_step ev cutoff mu s sw g = Some (g', r) -> sorted (c_fits (g_core g')) -> genetic_history cutoff n l g'.

(** The evaluator returned the fitness [f] for the points [pts]. *)
Definition evaluated (pts : list npoint) (f : f64) : Prop := exists e i log e', ev_calc ev e i pts log = Some (e', f).
(** An evaluator whose fitness is a function of the points. *)
Definition functional (phi : list npoint -> f64) : Prop := forall pts f, evaluated pts f -> f = phi pts.
Definition nan_free : Prop := forall pts f, evaluated pts f -> is_nan f = false.
Definition positive : Prop := forall pts f, evaluated pts f -> flt f0 f = true.
End Histories.
