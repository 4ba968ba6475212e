(** Runs of the default algorithm (C73). *)
From Coq Require Import ZArith List Bool.
From Flocq Require Import IEEE754.BinarySingleNaN.
From Verif Require Import GoNum M_Norm S_Norm M_Geom M_Image S_Image L_Image M_Random M_Algo M_Chan M_Fitness S_Run2 M_Default.
Import ListNotations.
Open Scope Z_scope.

(** An image of a size the program is made for. *)
Definition usual_image (image : goimage) : Prop := conforming image /\ 4 <= g_maxx image <= 1920 /\ 4 <= g_maxy image <= 1920.
(** rand.Float64 returns numbers in [0,1). *)
Definition unit_pairs (rnd : nat -> nat -> f64 * f64) : Prop := forall k i, draw01 (fst (rnd k i)) /\ draw01 (snd (rnd k i)).
(** NormFloat64 never returns a NaN (C56_num); it may return an infinity (C56_finite_refuted). *)
Definition number_draws (d : nat -> nat -> gdraw) : Prop := forall i k, is_nan (gd_x (d i k)) = false /\ is_nan (gd_y (d i k)) = false.
(** What the goroutines of one calculateFitnesses did, in order, when it returned. *)
Definition finished (n : nat) (s : list act) : Prop := exists k st, csteps n n k st /\ phase st = Finished /\ trace st = s.

(** DefaultAlgorithm and then any number of Steps; [fi] are the data of the fitness functions. *)
Section Run.
Context (fuel : nat) (srt : point -> list point -> option (list point)) (num : Z) (image : goimage).
Inductive default_run (fi : fimg) : core par -> Prop :=
| dr_new rnd s sw c r : unit_pairs rnd -> finished default_size s ->
    default_algorithm fuel srt num image rnd s sw = Some (fi, (c, r)) -> sort_sorts (c_fits c) -> default_run fi c
| dr_step d s sw c c' r : default_run fi c -> number_draws d -> finished default_size s ->
    default_step srt num fi d s sw c = Some (c', r) -> sort_sorts (c_fits c') -> default_run fi c'.
End Run.
