(** Properties C10-C14: colours, images, pixel tables. *)
From Coq Require Import ZArith Reals List Bool Lia.
From Flocq Require Import Core IEEE754.BinarySingleNaN.
From Verif Require Import GoNum FloatLemmas M_Norm S_Norm M_Image S_Image L_Image.
Import ListNotations.
Open Scope Z_scope.

(** C10: adding colours and averaging. *)
Theorem C10_average : forall l : list rgb, 1 <= Z.of_nat (length l) < 2 ^ 53 -> Forall rgb_unit l ->
  let a := fold_left avg_add l avg0 in
  a_count a = Z.of_nat (length l) /\ rgb_unit (avg_average a).
Proof. exact average_ok. Qed.
Print Assumptions C10_average.
Example C10_case : let a := fold_left avg_add [RGB f1 f0 fhalf; RGB f1 f1 f0] avg0 in
  a_count a = 2 /\ feq (cr (avg_average a)) f1 = true /\ feq (cg (avg_average a)) fhalf = true.
Proof. vm_compute. auto. Qed.

(** C11: ToData; [rnd] is rounding to nearest-even binary64. *)
Theorem C11_to_data : forall im, 0 <= g_maxx im -> 0 <= g_maxy im -> conforming im ->
  exists d, to_data im = Some d /\ d_w d = g_maxx im /\ d_h d = g_maxy im /\
  (forall x y, ~ (0 <= x < g_maxx im /\ 0 <= y < g_maxy im) -> rgb_at d x y = None) /\
  (forall x y, 0 <= x < g_maxx im -> 0 <= y < g_maxy im ->
     exists c, rgb_at d x y = Some c /\ rgb_unit c /\
       let '(r, g, b) := g_at im x y in
       B2R (cr c) = rnd (IZR (r / 256) / 255) /\ B2R (cg c) = rnd (IZR (g / 256) / 255) /\
       B2R (cb c) = rnd (IZR (b / 256) / 255)).
Proof. exact to_data_spec. Qed.
Print Assumptions C11_to_data.
Example C11_conforming : exists im, conforming im /\ g_maxx im = 3 /\ g_maxy im = 2.
Proof. exists (GoImage 3 2 (fun x y => (Z.abs x mod 65536, 300, 65535))). split; [|split; reflexivity].
  intros x y. cbn. pose proof (Z.mod_pos_bound (Z.abs x) 65536 ltac:(lia)). lia. Qed.

(** C12 and C13: the pixel table the fitness function builds from an image
    converted by ToData has the image's own 8-bit channels, and square sums that
    are exact or one too small. *)
Theorem C12_C13_pixels : forall im, 0 <= g_maxx im -> 0 <= g_maxy im -> conforming im ->
  exists d t, to_data im = Some d /\ from_image (as_idata d) = Some t /\
  forall x y, 0 <= x < g_maxx im -> 0 <= y < g_maxy im ->
    exists p, match znth t y with Some row => znth row x | None => None end = Some p /\
      let '(r, g, b) := g_at im x y in
      (p_r p = r / 256 /\ p_g p = g / 256 /\ p_b p = b / 256) /\
      let s := (r / 256) * (r / 256) + (g / 256) * (g / 256) + (b / 256) * (b / 256) in
      (p_sq p = s \/ p_sq p = s - 1).
Proof. exact pixels_of_image. Qed.
Print Assumptions C12_C13_pixels.

(** C13: "the stored square sum is exact" is false: the colour (7,0,0). *)
Theorem C13_exact_refuted : exists c, 0 <= c < 65536 /\
  p_sq (to_pixel (RGB (convert_color c) (convert_color 0) (convert_color 0))) = (c / 256) * (c / 256) - 1.
Proof. exact sq_witness. Qed.
Print Assumptions C13_exact_refuted.
Example C13_exact_sometimes :
  p_sq (to_pixel (RGB (convert_color 65535) (convert_color 65535) (convert_color 65535))) = 3 * 255 * 255.
Proof. vm_compute. reflexivity. Qed.

(** C14: block tables, for every good image and block size fitting the image. *)
Theorem C14_blocks : forall im n t, good_image im -> 1 <= n -> n <= i_w im + 1 -> n <= i_h im + 1 ->
  from_image im = Some t ->
  exists tn, from_imageN im n = Some tn /\
    Z.of_nat (length tn) = i_h im - n + 1 /\ (forall row, In row tn -> Z.of_nat (length row) = i_w im - n + 1) /\
    forall x y, 0 <= x <= i_w im - n -> 0 <= y <= i_h im - n ->
      let S f := block_sum n x y (fun a b => f (tab t a b)) in
      match znth tn y with Some row => znth row x | None => None end =
        Some (Px (S p_r mod 2 ^ 16) (S p_g mod 2 ^ 16) (S p_b mod 2 ^ 16) (S p_sq mod 2 ^ 32)) /\
      (n <= 16 -> match znth tn y with Some row => znth row x | None => None end = Some (Px (S p_r) (S p_g) (S p_b) (S p_sq))).
Proof. exact from_imageN_spec. Qed.
Print Assumptions C14_blocks.

(** ... and with blocks of 17 the 16-bit sums wrap: a white block stores 8159 instead of 73695. *)
Theorem C14_wraps_at_17 : exists im, good_image im /\
  option_map (fun p => p_r p) (block_value im 17 0 0) = Some 8159 /\ 17 * 17 * 255 = 73695.
Proof. exact wrap_witness. Qed.
Print Assumptions C14_wraps_at_17.
Example C14_case : option_map (fun p => (p_r p, p_sq p)) (block_value (white 16) 16 0 0) = Some (65280, 49939200).
Proof. vm_compute. reflexivity. Qed.
