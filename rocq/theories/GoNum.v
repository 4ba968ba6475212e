(** Go numbers.

    Fixed-width integers are integers of [Z] with explicit wrap-around;
    [float64]/[float32] are Flocq's IEEE-754 binary64/binary32 with one NaN,
    rounding to nearest even (Go spec, "Numeric types"; amd64, no fused
    multiply-add).  Nothing in this file models a function of /repo; it models
    the Go language operators the other files use. *)
From Coq Require Import ZArith Reals Bool.
From Flocq Require Import Core IEEE754.BinarySingleNaN.

Open Scope Z_scope.

(* ------------------------------------------------------------------ *)
(** * Fixed-width integers: conversion [intN(x)] / [uintN(x)] of a mathematical
    integer, i.e. two's-complement wrap. *)

Definition wrapu (n z : Z) : Z := z mod 2 ^ n.
Definition wraps (n z : Z) : Z := (z + 2 ^ (n - 1)) mod 2 ^ n - 2 ^ (n - 1).

Definition i16 := wraps 16.
Definition i32 := wraps 32.
Definition i64 := wraps 64.
Definition u8 := wrapu 8.
Definition u16 := wrapu 16.
Definition u32 := wrapu 32.
Definition u64 := wrapu 64.

(* ------------------------------------------------------------------ *)
(** * Floats *)

Definition f64 := binary_float 53 1024.
Definition f32 := binary_float 24 128.

#[global] Instance prec_gt_0_53 : Prec_gt_0 53 := eq_refl.
#[global] Instance prec_lt_53 : Prec_lt_emax 53 1024 := eq_refl.
#[global] Instance prec_gt_0_24 : Prec_gt_0 24 := eq_refl.
#[global] Instance prec_lt_24 : Prec_lt_emax 24 128 := eq_refl.

(** [x + y], [x - y], [x * y], [x / y], [math.Sqrt] on float64. *)
Definition fadd (x y : f64) : f64 := Bplus mode_NE x y.
Definition fsub (x y : f64) : f64 := Bminus mode_NE x y.
Definition fmul (x y : f64) : f64 := Bmult mode_NE x y.
Definition fdiv (x y : f64) : f64 := Bdiv mode_NE x y.
Definition fsqrt (x : f64) : f64 := Bsqrt mode_NE x.
Definition fopp (x : f64) : f64 := Bopp x.
Definition fabs (x : f64) : f64 := Babs x.

(** Comparisons; all false when an operand is NaN, except [!=]. *)
Definition flt (x y : f64) : bool := Bltb x y.
Definition fle (x y : f64) : bool := Bleb x y.
Definition feq (x y : f64) : bool := Beqb x y.

(** [m * 2^e] rounded to nearest even. *)
Definition f64_dy (m e : Z) : f64 := binary_normalize 53 1024 _ _ mode_NE m e false.
Definition f32_dy (m e : Z) : f32 := binary_normalize 24 128 _ _ mode_NE m e false.

(** [float64(z)] for an integer [z]. *)
Definition f64_of_Z (z : Z) : f64 := f64_dy z 0.

(** [float32(x)] of a float64, and [float64(x)] of a float32. *)
Definition f32_of_f64 (x : f64) : f32 :=
  match x with
  | B754_zero s => B754_zero s
  | B754_infinity s => B754_infinity s
  | B754_nan => B754_nan
  | B754_finite s m e _ => binary_normalize 24 128 _ _ mode_NE (cond_Zopp s (Zpos m)) e s
  end.

Definition f64_of_f32 (x : f32) : f64 :=
  match x with
  | B754_zero s => B754_zero s
  | B754_infinity s => B754_infinity s
  | B754_nan => B754_nan
  | B754_finite s m e _ => binary_normalize 53 1024 _ _ mode_NE (cond_Zopp s (Zpos m)) e s
  end.

(** float32 arithmetic. *)
Definition f32add (x y : f32) : f32 := Bplus mode_NE x y.
Definition f32sub (x y : f32) : f32 := Bminus mode_NE x y.
Definition f32mul (x y : f32) : f32 := Bmult mode_NE x y.
Definition f32div (x y : f32) : f32 := Bdiv mode_NE x y.
Definition f32lt (x y : f32) : bool := Bltb x y.

(** Constants. *)
Definition f0 : f64 := f64_of_Z 0.
Definition f1 : f64 := f64_of_Z 1.
Definition fhalf : f64 := f64_dy 1 (-1).

(** [math.Round], [math.Floor], [math.Ceil]. *)
Definition fround (x : f64) : f64 := Bnearbyint mode_NA x.
Definition ffloor (x : f64) : f64 := Bnearbyint mode_DN x.
Definition fceil (x : f64) : f64 := Bnearbyint mode_UP x.

(** [math.Max] and [math.Min] (special cases in the order of Go's source). *)
Definition is_inf (s : bool) (x : f64) : bool :=
  match x with B754_infinity s' => Bool.eqb s s' | _ => false end.
Definition is_zero (x : f64) : bool :=
  match x with B754_zero _ => true | _ => false end.

Definition fmax (x y : f64) : f64 :=
  if is_inf false x || is_inf false y then B754_infinity false
  else if is_nan x || is_nan y then B754_nan
  else if is_zero x && is_zero y then (if Bsign x then y else x)
  else if flt y x then x else y.

Definition fmin (x y : f64) : f64 :=
  if is_inf true x || is_inf true y then B754_infinity true
  else if is_nan x || is_nan y then B754_nan
  else if is_zero x && is_zero y then (if Bsign x then x else y)
  else if flt x y then x else y.

(** [int(x)] of a float64: truncation towards zero.  For NaN and values that do
    not fit, the Go spec leaves the result implementation-dependent; amd64
    (CVTTSD2SQ) yields -2^63. *)
Definition go_int (x : f64) : Z :=
  if is_finite x then
    let z := Btrunc x in
    if (- 2 ^ 63 <=? z) && (z <? 2 ^ 63) then z else - 2 ^ 63
  else - 2 ^ 63.

(** [uint8(x)], [uint16(x)], [uint32(x)] of a float64: as compiled for amd64,
    a conversion to a wider integer followed by truncation of the high bits. *)
Definition go_u8 (x : f64) : Z := u8 (go_int x).
Definition go_u16 (x : f64) : Z := u16 (go_int x).
Definition go_u32 (x : f64) : Z := u32 (go_int x).
