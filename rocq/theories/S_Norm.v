(** Specifications for normgeom / mutation / generator: plain mathematics, not
    using the functions of the model. *)
From Coq Require Import ZArith Reals List Bool Sorted.
From Flocq Require Import IEEE754.BinarySingleNaN.
From Verif Require Import GoNum M_Norm.
Import ListNotations.
Open Scope R_scope.

(** A float that denotes a real number of [0,1]. *)
Definition in_unit (v : f64) : Prop := is_finite v = true /\ 0 <= B2R v <= 1.
(** A float greater than 1 / less than 0 (infinities included, NaN excluded). *)
Definition above_one (v : f64) : Prop := v = B754_infinity false \/ (is_finite v = true /\ 1 < B2R v).
Definition below_zero (v : f64) : Prop := v = B754_infinity true \/ (is_finite v = true /\ B2R v < 0).

Definition pt_in_unit (p : npoint) : Prop := in_unit (nx p) /\ in_unit (ny p).

(** [log] is exactly the difference between [old] and [new]. *)
Record exact_log (old new : list npoint) (log : list mut) : Prop := {
  el_length : length new = length old;
  el_sorted : StronglySorted lt (map m_idx log);
  el_entry : forall m, In m log ->
      nth_error old (m_idx m) = Some (m_old m) /\ nth_error new (m_idx m) = Some (m_new m);
  el_frame : forall i, ~ In i (map m_idx log) -> nth_error new i = nth_error old i;
  el_replay : fold_left (fun g m => firstn (m_idx m) g ++ m_new m :: skipn (S (m_idx m)) g) log old = new
}.

(** A draw of rand.Float64: a float in [0,1). *)
Definition draw01 (v : f64) : Prop := is_finite v = true /\ 0 <= B2R v < 1.

(** [d] is the distance from [q] to the nearest point of [g] that differs from
    [q]; -1 when there is none. *)
Definition nearest_dist (q : npoint) (g : list npoint) (d : f64) : Prop :=
  (exists p, In p g /\ npeq p q = false /\ d = dist p q /\
     forall p', In p' g -> npeq p' q = false -> B2R d <= B2R (dist p' q)) \/
  ((forall p, In p g -> npeq p q = true) /\ d = fm1).
