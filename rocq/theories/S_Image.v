(** Specifications for colours and pixel tables. *)
From Coq Require Import ZArith Reals List.
From Flocq Require Import IEEE754.BinarySingleNaN.
From Verif Require Import GoNum S_Norm M_Image.
Import ListNotations.
Open Scope Z_scope.

Definition rgb_unit (c : rgb) : Prop := in_unit (cr c) /\ in_unit (cg c) /\ in_unit (cb c).

(** An image whose every position inside w x h can be read and has channels in [0,1]. *)
Definition good_image (im : idata) : Prop :=
  0 <= i_w im /\ 0 <= i_h im /\
  forall x y, 0 <= x < i_w im -> 0 <= y < i_h im -> exists c, i_at im x y = Some c /\ rgb_unit c.

(** Sum of [f] over 0..n-1. *)
Fixpoint sum_to (n : nat) (f : Z -> Z) : Z :=
  match n with O => 0 | S k => sum_to k f + f (Z.of_nat k) end.

(** Sum of [f] over the n x n block with corner (x,y). *)
Definition block_sum (n x y : Z) (f : Z -> Z -> Z) : Z :=
  sum_to (Z.to_nat n) (fun i => sum_to (Z.to_nat n) (fun j => f (x + i) (y + j))).
