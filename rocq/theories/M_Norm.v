(** Model of packages normgeom, mutation and generator. *)
From Coq Require Import ZArith List Bool.
From Flocq Require Import IEEE754.BinarySingleNaN.
From Verif Require Import GoNum.
Import ListNotations.
Open Scope Z_scope.

(** type NormPoint (normgeom/normpoint.go:10-13). *)
Record npoint := NP { nx : f64; ny : f64 }.

(** One coordinate of Constrain (normgeom/normpoint.go:17-21 for X, 23-27 for Y). *)
Definition constrain1 (v : f64) : f64 :=
  if flt f1 v then f1 else if flt v f0 then f0 else v.

(** NormPoint.Constrain (normgeom/normpoint.go:16-28). *)
Definition constrain (p : npoint) : npoint := NP (constrain1 (nx p)) (constrain1 (ny p)).

(** Dist (normgeom/normpoint.go:31-36). *)
Definition dist (a b : npoint) : f64 :=
  let dX := fsub (nx a) (nx b) in
  let dY := fsub (ny a) (ny b) in
  fsqrt (fadd (fmul dX dX) (fmul dY dY)).

(** [p == point] on NormPoint structs: field-wise float equality (Go spec). *)
Definition npeq (a b : npoint) : bool := feq (nx a) (nx b) && feq (ny a) (ny b).

(** type Mutation (mutation/data.go:6-9). *)
Record mut := Mut { m_old : npoint; m_new : npoint; m_idx : nat }.

(** What the random source delivers while the loop visits point [i] in
    gaussianMethod.Mutate: the Float32 of line 17 and, if used, the two
    NormFloat64 of lines 20 and 21.  Any run of the generator is some function
    [nat -> gdraw]. *)
Record gdraw := GD { gd_pick : f32; gd_x : f64; gd_y : f64 }.

(** gaussianMethod.Mutate (mutation/gaussian.go:15-32), from index [i] on.
    Result: the group afterwards and the mutations passed to the callback, in
    order. *)
Fixpoint gaussian_from (rate : f32) (amount : f64) (d : nat -> gdraw) (i : nat)
    (pts : list npoint) : list npoint * list mut :=
  match pts with
  | [] => ([], [])
  | old :: rest =>
      let (rest', log) := gaussian_from rate amount d (S i) rest in
      if f32lt (gd_pick (d i)) rate then
        let p := NP (fadd (nx old) (fmul (fmul (gd_x (d i)) amount) fhalf))
                    (fadd (ny old) (fmul (fmul (gd_y (d i)) amount) fhalf)) in
        let new := constrain p in
        (new :: rest', Mut old new i :: log)
      else (old :: rest', log)
  end.
Definition gaussian_mutate rate amount d pts := gaussian_from rate amount d 0 pts.

(** NewGaussianMethod (mutation/gaussian.go:35-37): the rate is rounded to float32. *)
Definition new_gaussian_rate (rate : f64) : f32 := f32_of_f64 rate.
(** DefaultGaussianMethod (mutation/gaussian.go:40-42): rate 2/float32(n), amount 0.3. *)
Definition default_gaussian_rate (n : Z) : f32 := f32div (f32_dy 2 0) (f32_dy n 0).
Definition default_gaussian_amount : f64 := fdiv (f64_of_Z 3) (f64_of_Z 10).

(** Draws of rand.Float64 in randomMethod.Mutate (lines 16, 18, 19) at point [i]. *)
Record rdraw := RD { rd_pick : f64; rd_x : f64; rd_y : f64 }.

(** randomMethod.Mutate (mutation/random.go:14-28). *)
Fixpoint random_from (rate amount : f64) (d : nat -> rdraw) (i : nat)
    (pts : list npoint) : list npoint * list mut :=
  match pts with
  | [] => ([], [])
  | old :: rest =>
      let (rest', log) := random_from rate amount d (S i) rest in
      if flt (rd_pick (d i)) rate then
        let p := NP (fadd (nx old) (fmul (fsub (rd_x (d i)) fhalf) amount))
                    (fadd (ny old) (fmul (fsub (rd_y (d i)) fhalf) amount)) in
        let new := constrain p in
        (new :: rest', Mut old new i :: log)
      else (old :: rest', log)
  end.
Definition random_mutate rate amount d pts := random_from rate amount d 0 pts.

(* ------------------------------------------------------------------ *)
(** * generator *)

(** randomPoints (generator/random.go:18-26); [d i] are the two rand.Float64
    draws of iteration [i].  A non-positive [n] gives the empty group. *)
Definition random_points (n : Z) (d : nat -> f64 * f64) : list npoint :=
  map (fun i => NP (fst (d i)) (snd (d i))) (seq 0 (Z.to_nat n)).

(** RandomGenerator.Generate (generator/random.go:13-15). *)
Definition random_generate := random_points.

(** The float constant -1 of closestTo. *)
Definition fm1 : f64 := f64_of_Z (-1).

(** closestTo (generator/spaced.go:50-67), the distance result; the loop of
    lines 54-65 with [d] the variable dist.  The first result (the closest point)
    is never used by the callers.  group[0] on line 51 panics on an empty group;
    Generate only calls it with n >= 1 points (rand.Intn(n) panics before otherwise). *)
Fixpoint closest_loop (q : npoint) (d : f64) (g : list npoint) : f64 :=
  match g with
  | [] => d
  | p :: g' =>
      if npeq p q then closest_loop q d g'
      else let nd := dist p q in
           if feq d fm1 || flt nd d then closest_loop q nd g' else closest_loop q d g'
  end.
Definition closest_to (q : npoint) (g : list npoint) : f64 := closest_loop q fm1 g.

(** [points[i] = p] *)
Fixpoint upd {A} (i : nat) (a : A) (l : list A) : list A :=
  match l, i with
  | [], _ => []
  | _ :: t, O => a :: t
  | h :: t, S j => h :: upd j a t
  end.

(** Draws of one iteration of spacedGenerator.Generate: rand.Intn(n) and two rand.Float64. *)
Record sdraw := SD { sd_i : nat; sd_x : f64; sd_y : f64 }.

(** One iteration of the loop (generator/spaced.go:28-43); [None]: index out of range. *)
Definition spaced_iter (temp : f64) (d : sdraw) (pts : list npoint) : option (list npoint) :=
  match nth_error pts (sd_i d) with
  | None => None
  | Some p =>
      let currDist := closest_to p pts in
      let p1 := constrain (NP (fadd (nx p) (fmul (fsub (sd_x d) fhalf) temp))
                              (fadd (ny p) (fmul (fsub (sd_y d) fhalf) temp))) in
      let newDist := closest_to p1 pts in
      Some (if flt currDist newDist then upd (sd_i d) p1 pts else pts)
  end.

(** The loop of lines 27-46; [decrement] is s.decrement. *)
Fixpoint spaced_loop (decrement temp : f64) (ds : list sdraw) (pts : list npoint)
    : option (list npoint) :=
  match ds with
  | [] => Some pts
  | d :: ds' =>
      match spaced_iter temp d pts with
      | None => None
      | Some pts' => spaced_loop decrement (fmul temp decrement) ds' pts'
      end
  end.

(** spacedGenerator.Generate (generator/spaced.go:17-48); [ds] has one entry per
    iteration.  rand.Intn(n) panics for n <= 0. *)
Definition spaced_generate (decrement : f64) (n : Z) (init : nat -> f64 * f64) (ds : list sdraw)
    : option (list npoint) :=
  match ds with
  | _ :: _ => if n <=? 0 then None else spaced_loop decrement f1 ds (random_points n init)
  | [] => Some (random_points n init)
  end.
