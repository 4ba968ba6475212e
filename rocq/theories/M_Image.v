(** Model of packages color and image and of fitness/pixels.go. *)
From Coq Require Import ZArith List Bool.
From Flocq Require Import IEEE754.BinarySingleNaN.
From Verif Require Import GoNum.
Import ListNotations.
Open Scope Z_scope.

(** type RGB (color/color.go:5-9). *)
Record rgb := RGB { cr : f64; cg : f64; cb : f64 }.

(** type AverageRGB (color/color.go:17-20); count is a uint (64 bits). *)
Record avg := Avg { a_rgb : rgb; a_count : Z }.
Definition avg0 : avg := Avg (RGB f0 f0 f0) 0.

(** AverageRGB.Add (color/color.go:23-28). *)
Definition avg_add (a : avg) (c : rgb) : avg :=
  Avg (RGB (fadd (cr (a_rgb a)) (cr c)) (fadd (cg (a_rgb a)) (cg c)) (fadd (cb (a_rgb a)) (cb c)))
      (u64 (a_count a + 1)).

(** AverageRGB.Average (color/color.go:31-34). *)
Definition avg_average (a : avg) : rgb :=
  let c := f64_of_Z (a_count a) in
  RGB (fdiv (cr (a_rgb a)) c) (fdiv (cg (a_rgb a)) c) (fdiv (cb (a_rgb a)) c).

(** Helpers: indices 0..n-1, indexing by an int, and loops that may panic. *)
Definition zrange (n : Z) : list Z := map Z.of_nat (seq 0 (Z.to_nat n)).
Definition znth {A} (l : list A) (i : Z) : option A :=
  if i <? 0 then None else nth_error l (Z.to_nat i).
Fixpoint mapM {A B} (f : A -> option B) (l : list A) : option (list B) :=
  match l with
  | [] => Some []
  | a :: t => match f a with
              | None => None
              | Some b => match mapM f t with None => None | Some bs => Some (b :: bs) end
              end
  end.

(** type RGBData (image/rgbdata.go:10-14). *)
Record rgbdata := RGBData { d_w : Z; d_h : Z; d_px : list (list rgb) }.

(** RGBData.RGBAt (image/rgbdata.go:17-19); [None]: index out of range. *)
Definition rgb_at (d : rgbdata) (x y : Z) : option rgb :=
  match znth (d_px d) y with None => None | Some row => znth row x end.

(** convertColor (image/rgbdata.go:57-59). *)
Definition convert_color (c : Z) : f64 := fdiv (f64_of_Z (Z.shiftr c 8)) (f64_of_Z 255).

(** The standard library's image.Image: the Max corner of Bounds() and, for each
    position, the first three results of At(x,y).RGBA() (uint32 values). *)
Record goimage := GoImage { g_maxx : Z; g_maxy : Z; g_at : Z -> Z -> Z * Z * Z }.

(** ToData (image/rgbdata.go:39-54) with NewData (27-36): NewData allocates the
    rows, the loops overwrite every cell once, so the result is built directly.
    make panics on a negative size. *)
Definition to_data (im : goimage) : option rgbdata :=
  if (g_maxy im <? 0) || ((0 <? g_maxy im) && (g_maxx im <? 0)) then None else
  Some (RGBData (g_maxx im) (g_maxy im)
    (map (fun y => map (fun x =>
        let '(r, g, b) := g_at im x y in
        RGB (convert_color r) (convert_color g) (convert_color b))
      (zrange (g_maxx im))) (zrange (g_maxy im)))).

(** The image.Data interface (image/data.go:5-8). *)
Record idata := IData { i_w : Z; i_h : Z; i_at : Z -> Z -> option rgb }.
Definition as_idata (d : rgbdata) : idata := IData (d_w d) (d_h d) (rgb_at d).

(* ------------------------------------------------------------------ *)
(** * fitness/pixels.go *)

(** type pixel (fitness/pixels.go:19-22) and pixelN (63-66). *)
Record pixel := Px { p_r : Z; p_g : Z; p_b : Z; p_sq : Z }.

(** The square expression of lines 49 and 95 (left-associative products). *)
Definition sq_expr (c : rgb) : f64 :=
  let t v := fmul (fmul (fmul v (f64_of_Z 255)) v) (f64_of_Z 255) in
  fadd (fadd (t (cr c)) (t (cg c))) (t (cb c)).

(** One pixel of fromImage (fitness/pixels.go:44-49). *)
Definition to_pixel (c : rgb) : pixel :=
  Px (go_u8 (fmul (cr c) (f64_of_Z 255))) (go_u8 (fmul (cg c) (f64_of_Z 255)))
     (go_u8 (fmul (cb c) (f64_of_Z 255))) (go_u32 (sq_expr c)).

(** fromImage (fitness/pixels.go:37-54), the pixel table. *)
Definition from_image (im : idata) : option (list (list pixel)) :=
  if (i_h im <? 0) || ((0 <? i_h im) && (i_w im <? 0)) then None else
  mapM (fun y => mapM (fun x => option_map to_pixel (i_at im x y)) (zrange (i_w im))) (zrange (i_h im)).

(** The additions of lines 92-95 on one pixelN (uint16 / uint32 wrap). *)
Definition add_pixelN (col : pixel) (c : rgb) : pixel :=
  Px (u16 (p_r col + go_u16 (fmul (cr c) (f64_of_Z 255))))
     (u16 (p_g col + go_u16 (fmul (cg c) (f64_of_Z 255))))
     (u16 (p_b col + go_u16 (fmul (cb c) (f64_of_Z 255))))
     (u32 (p_sq col + go_u32 (sq_expr c))).

(** The two inner loops (lines 89-97) for the block with corner (x,y). *)
Definition block_value (im : idata) (n x y : Z) : option pixel :=
  fold_left (fun acc i =>
    fold_left (fun acc j =>
      match acc, i_at im (x + i) (y + j) with
      | Some col, Some c => Some (add_pixelN col c)
      | _, _ => None
      end) (zrange n) acc) (zrange n) (Some (Px 0 0 0 0)).

(** fromImageN (fitness/pixels.go:81-102) with newPixelDataN (69-78). *)
Definition from_imageN (im : idata) (n : Z) : option (list (list pixel)) :=
  let rows := i_h im - n + 1 in
  let cols := i_w im - n + 1 in
  if (rows <? 0) || ((0 <? rows) && (cols <? 0)) then None else
  mapM (fun y => mapM (fun x => block_value im n x y) (zrange cols)) (zrange rows).
