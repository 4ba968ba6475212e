(** Executions of calculateFitnesses in which the steps of the goroutines are interleaved. *)
From Coq Require Import List.
From Verif Require Import M_Geom M_Algo M_Fitness M_Fine.
Import ListNotations.

Section Spec.
Context (im : fimg) (srt : point -> list point -> option (list point)).
(** Nothing is left that any goroutine could do. *)
Definition finished (st : fstate) : Prop := forall a, ~ enabled st a.
(** One step leads from st to st'. *)
Definition goes_to (st' st : fstate) : Prop := exists a, enabled st a /\ fine_step im srt st a = Some st'.
(** Every execution from st on ends: there is no infinite one. *)
Definition must_end (st : fstate) : Prop := Acc goes_to st.
End Spec.
