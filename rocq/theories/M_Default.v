(** Model of utils.DefaultAlgorithm (utils/default.go), the program a user gets without
    configuring anything, and of gaussianMethod.Mutate drawing from the generator of
    package random. *)
From Coq Require Import ZArith List Bool.
From Verif Require Import GoNum M_Norm M_Geom M_Image M_Random M_Algo M_Fitness.
Import ListNotations.
Open Scope Z_scope.

Section Gaussian.
(** The generator of package random, see M_Random. *)
Context {G : Type} (next : G -> Z * G) (float32 : G -> f32 * G) (log exp : f64 -> f64).

(** gaussianMethod.Mutate (mutation/gaussian.go:15-32) from index [i] on, with the calls of
    random.Float32 and random.NormFloat64 in their order; [None]: a panic, or more than [fuel]
    iterations in a call of NormFloat64. *)
Fixpoint gaussian_gen (fuel : nat) (rate : f32) (amount : f64) (i : nat) (pts : list npoint) (g : G) : option (list npoint * list mut * G) :=
  match pts with
  | [] => Some ([], [], g)
  | old :: rest =>
      let (u, g1) := float32 g in
      if f32lt u rate then
        match norm_float64 next float32 log exp fuel g1 with
        | Done x g2 =>
            match norm_float64 next float32 log exp fuel g2 with
            | Done y g3 =>
                let new := constrain (NP (fadd (nx old) (fmul (fmul x amount) fhalf)) (fadd (ny old) (fmul (fmul y amount) fhalf))) in
                match gaussian_gen fuel rate amount (S i) rest g3 with
                | Some (rest', muts, g') => Some (new :: rest', Mut old new i :: muts, g')
                | None => None
                end
            | _ => None
            end
        | _ => None
        end
      else
        match gaussian_gen fuel rate amount (S i) rest g1 with
        | Some (rest', muts, g') => Some (old :: rest', muts, g')
        | None => None
        end
  end.
End Gaussian.

(** The numbers of utils/default.go:23 and 30: blocks of 5 pixels, caches of 2^22 entries, 400
    members, cutoff 5. *)
Definition default_block : Z := 5.
Definition default_pow2 : nat := 22.
Definition default_size : nat := Z.to_nat 400.
Definition default_cutoff : nat := 5.

(** The groups pointFactory makes (utils/default.go:18-20); [rnd k i] are the two rand.Float64
    of point [i] of call [k]. *)
Definition default_groups (num : Z) (rnd : nat -> nat -> f64 * f64) : list (list npoint) :=
  map (fun k => random_generate num (rnd k)) (seq 0 default_size).
(** mutator (utils/default.go:28); [d i k] are the draws at point [k] of member [i]. *)
Definition default_mutator (num : Z) (d : nat -> nat -> gdraw) : mutator :=
  fun i pts => gaussian_mutate (default_gaussian_rate num) default_gaussian_amount (d i) pts.

Section Default.
Context (fuel : nat) (srt : point -> list point -> option (list point)) (num : Z).
(** DefaultAlgorithm (utils/default.go:15-32): the data of the fitness functions
    (TrianglesImageFunctions shares them between the functions) and the algorithm. *)
Definition default_algorithm (image : goimage) (rnd : nat -> nat -> f64 * f64) (s : list act) (sw : list (nat * nat)) : option (fimg * (core par * results)) :=
  match to_data image with
  | None => None
  | Some d =>
      match new_fimg fuel (as_idata d) default_block with
      | None => None
      | Some fi => option_map (pair fi) (new_simple (parallel fi srt) (default_groups num rnd) (new_parallel default_size default_pow2) s sw)
      end
  end.
(** Step of the algorithm (algorithm/simple.go:38-51). *)
Definition default_step (fi : fimg) (d : nat -> nat -> gdraw) (s : list act) (sw : list (nat * nat)) (c : core par) : option (core par * results) :=
  simple_step (parallel fi srt) default_cutoff (default_mutator num d) s sw c.
End Default.
