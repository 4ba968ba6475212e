(** Model of package rasterize.

    A rasteriser calls its callbacks in some order; the model returns the list of
    calls.  [int] arithmetic on coordinates is unbounded here; the theorems
    restrict coordinates so that nothing can overflow 64 bits. *)
From Coq Require Import ZArith List Bool.
From Flocq Require Import IEEE754.BinarySingleNaN.
From Verif Require Import GoNum M_Norm M_Geom.
Import ListNotations.
Open Scope Z_scope.

(** A call [line(x0, x1, y)] or [block(x, y)]. *)
Inductive event := Line (x0 x1 y : Z) | Block (x y : Z).

(** The values of [i] in [for i := lo; i < hi; i++]. *)
Definition zfor (lo hi : Z) : list Z := map (fun k => lo + Z.of_nat k) (seq 0 (Z.to_nat (hi - lo))).

(** The expression [m*float64(d) + b] used for every row. *)
Definition lin (m b : f64) (d : Z) : f64 := fadd (fmul m (f64_of_Z d)) b.

(** The expression [float64(dx) / float64(dy)]. *)
Definition slope (dx dy : Z) : f64 := fdiv (f64_of_Z dx) (f64_of_Z dy).

(** The two or three swaps sorting the vertices (rasterize/lines.go:8-31 and,
    identically, rasterize/blocks.go:11-34): afterwards y2 <= y1 <= y0. *)
Definition sort_vertices (t : tri) : point * point * point :=
  let p0 := ta t in let p1 := tb t in let p2 := tc t in
  let '(p0, p1) := if py p1 >? py p0 then (p1, p0) else (p0, p1) in
  if py p2 >? py p1 then
    let '(p1, p2) := (p2, p1) in
    let '(p0, p1) := if py p1 >? py p0 then (p1, p0) else (p0, p1) in
    (p0, p1, p2)
  else (p0, p1, p2).

(** fillTriangleLines (rasterize/lines.go:121-127). *)
Definition fill_triangle_lines (minY maxY : Z) (lX0 lX1 m0 m1 : f64) : list event :=
  map (fun i => Line (go_int (lin m0 lX0 (i - minY))) (go_int (lin m1 lX1 (i - minY))) i) (zfor minY maxY).

(** flatTriangleLines (rasterize/lines.go:113-118). *)
Definition flat_triangle_lines (x0 y x2 y2 i2 p : Z) : list event :=
  let m0 := slope (x2 - x0) (y2 - y) in
  let m1 := slope i2 (y2 - y) in
  fill_triangle_lines y2 y (f64_of_Z x2) (f64_of_Z p) m0 m1.

(** bottomTriangleLines (rasterize/lines.go:103-105). *)
Definition bottom_triangle_lines (x0 x1 y x2 y2 : Z) : list event :=
  flat_triangle_lines x2 y2 x0 y (x1 - x2) x1.

(** topTriangleLines (rasterize/lines.go:108-110). *)
Definition top_triangle_lines (x0 x1 y x2 y2 : Z) : list event :=
  flat_triangle_lines x0 y x2 y2 (x2 - x1) x2.

(** normalTriangleLines (rasterize/lines.go:58-100). *)
Definition normal_triangle_lines (x0 y0 x1 y1 x2 y2 : Z) : list event :=
  let m0 := slope (x2 - x0) (y2 - y0) in
  let m1 := slope (x2 - x1) (y2 - y1) in
  let swap := flt m1 m0 in
  let '(m0, m1) := if swap then (m1, m0) else (m0, m1) in
  let b0 := f64_of_Z x2 in
  let b1 := f64_of_Z x2 in
  let part1 := map (fun i => Line (go_int (lin m0 b0 (i - y2))) (go_int (lin m1 b1 (i - y2))) i) (zfor y2 y1) in
  let '(m0, b0, d0, m1, b1, d1) :=
    if swap then (slope (x1 - x0) (y1 - y0), f64_of_Z x1, 0, m1, b1, y1 - y2)
    else (m0, b0, y1 - y2, slope (x1 - x0) (y1 - y0), f64_of_Z x1, 0) in
  let part2 := map (fun i => Line (go_int (lin m0 b0 (i - y1 + d0))) (go_int (lin m1 b1 (i - y1 + d1))) i) (zfor y1 y0) in
  part1 ++ part2.

(** DDATriangleLines (rasterize/lines.go:7-54). *)
Definition dda_lines (t : tri) : list event :=
  let '(p0, p1, p2) := sort_vertices t in
  if py p1 =? py p2 then
    let '(x1, x2) := if px p2 <? px p1 then (px p2, px p1) else (px p1, px p2) in
    bottom_triangle_lines x1 x2 (py p1) (px p0) (py p0)
  else if py p0 =? py p1 then
    let '(x0, x1) := if px p0 >? px p1 then (px p1, px p0) else (px p0, px p1) in
    top_triangle_lines x0 x1 (py p0) (px p2) (py p2)
  else
    normal_triangle_lines (px p0) (py p0) (px p1) (py p1) (px p2) (py p2).

(** DDATriangle (rasterize/pixels.go:9-15): the calls pixel(x, y). *)
Definition line_pixels (x0 x1 y : Z) : list (Z * Z) := map (fun x => (x, y)) (zfor x0 x1).
Definition dda_pixels (t : tri) : list (Z * Z) :=
  flat_map (fun e => match e with Line x0 x1 y => line_pixels x0 x1 y | Block _ _ => [] end) (dda_lines t).

(* ------------------------------------------------------------------ *)
(** * blocks.go.  The loops that step by [blockSize] take fuel; [None] means the
    fuel ran out. *)

(** [for ; float64(x+blockSize) < minX; x += blockSize { block(x, yb) }]
    (lines 82-84 and 154-156): the calls and the final x. *)
Fixpoint block_run (fuel : nat) (bs : Z) (minX : f64) (yb x : Z) : option (list event * Z) :=
  match fuel with
  | O => None
  | S k =>
      if flt (f64_of_Z (x + bs)) minX then
        match block_run k bs minX yb (x + bs) with
        | None => None
        | Some (l, x') => Some (Block x yb :: l, x')
        end
      else Some ([], x)
  end.

(** [bottomX/topX] with math.Max / math.Min for two rows (lines 61-67, 133-139). *)
Definition two_max (m b : f64) (d d' : Z) : f64 := fmax (lin m b d) (lin m b d').
Definition two_min (m b : f64) (d d' : Z) : f64 := fmin (lin m b d) (lin m b d').

(** The upward loop over blocks (rasterize/blocks.go:58-91): the calls and the
    value of [i] on leaving the loop. *)
Fixpoint up_blocks (fuel : nat) (bs y2 : Z) (m0 lX0 m1 lX1 : f64) (i : Z) : option (list event * Z) :=
  match fuel with
  | O => None
  | S k =>
      if i >? y2 then
        let top := i - bs + 1 in
        let maxX := two_max m0 lX0 (i - y2) (top - y2) in
        let minX := two_min m1 lX1 (i - y2) (top - y2) in
        if fle minX (f64_of_Z (go_int maxX + bs)) then Some ([], i)
        else
          let left := map (fun y => Line (go_int (lin m0 lX0 (i - y - y2))) (go_int maxX) (i - y)) (zfor 0 bs) in
          match block_run fuel bs minX (i - bs + 1) (go_int maxX) with
          | None => None
          | Some (mid, x) =>
              let right := map (fun y => Line x (go_int (lin m1 lX1 (i - y - y2))) (i - y)) (zfor 0 bs) in
              match up_blocks k bs y2 m0 lX0 m1 lX1 (i - bs) with
              | None => None
              | Some (rest, i') => Some (left ++ mid ++ right ++ rest, i')
              end
          end
      else Some ([], i)
  end.

(** The downward loop over blocks (rasterize/blocks.go:130-163). *)
Fixpoint down_blocks (fuel : nat) (bs y0 y1 : Z) (m0 lX0 : f64) (d0 : Z) (m1 lX1 : f64) (d1 : Z) (i : Z)
  : option (list event * Z) :=
  match fuel with
  | O => None
  | S k =>
      if i + bs <? y0 then
        let top := i + bs - 1 in
        let maxX := two_max m0 lX0 (i - y1 + d0) (top - y1 + d0) in
        let minX := two_min m1 lX1 (i - y1 + d1) (top - y1 + d1) in
        if fle minX (f64_of_Z (go_int maxX + bs)) then Some ([], i)
        else
          let left := map (fun y => Line (go_int (lin m0 lX0 (i + y - y1 + d0))) (go_int maxX) (i + y)) (zfor 0 bs) in
          match block_run fuel bs minX i (go_int maxX) with
          | None => None
          | Some (mid, x) =>
              let right := map (fun y => Line x (go_int (lin m1 lX1 (i + y - y1 + d1))) (i + y)) (zfor 0 bs) in
              match down_blocks k bs y0 y1 m0 lX0 d0 m1 lX1 d1 (i + bs) with
              | None => None
              | Some (rest, i') => Some (left ++ mid ++ right ++ rest, i')
              end
          end
      else Some ([], i)
  end.

(** [for ; i > y2; i-- { line(...) }] (lines 94-99). *)
Definition up_rest (y2 : Z) (m0 lX0 m1 lX1 : f64) (i : Z) : list event :=
  map (fun k => let i := i - k in Line (go_int (lin m0 lX0 (i - y2))) (go_int (lin m1 lX1 (i - y2))) i) (zfor 0 (i - y2)).

(** [for ; i < y0; i++ { line(...) }] (lines 166-170). *)
Definition down_rest (y0 y1 : Z) (m0 lX0 : f64) (d0 : Z) (m1 lX1 : f64) (d1 : Z) (i : Z) : list event :=
  map (fun i => Line (go_int (lin m0 lX0 (i - y1 + d0))) (go_int (lin m1 lX1 (i - y1 + d1))) i) (zfor i y0).

(** normalTriangleBlocks (rasterize/blocks.go:40-171). *)
Definition normal_triangle_blocks (fuel : nat) (x0 y0 x1 y1 x2 y2 bs : Z) : option (list event) :=
  let m0 := slope (x2 - x0) (y2 - y0) in
  let m1 := slope (x2 - x1) (y2 - y1) in
  let swap := flt m1 m0 in
  let '(m0, m1) := if swap then (m1, m0) else (m0, m1) in
  let lX0 := f64_of_Z x2 in
  let lX1 := f64_of_Z x2 in
  match up_blocks fuel bs y2 m0 lX0 m1 lX1 (y1 - 1) with
  | None => None
  | Some (e1, i) =>
      let e2 := up_rest y2 m0 lX0 m1 lX1 i in
      let '(m0, lX0, d0, m1, lX1, d1) :=
        if swap then (slope (x1 - x0) (y1 - y0), f64_of_Z x1, 0, m1, lX1, y1 - y2)
        else (m0, lX0, y1 - y2, slope (x1 - x0) (y1 - y0), f64_of_Z x1, 0) in
      let '(m0, lX0, m1, lX1) :=
        if y1 =? y2 then
          let lX0 := f64_of_Z x2 in
          let lX1 := f64_of_Z x1 in
          let '(lX0, lX1) := if flt lX1 lX0 then (lX1, lX0) else (lX0, lX1) in
          let '(m0, m1) := if flt m0 m1 then (m1, m0) else (m0, m1) in
          (m0, lX0, m1, lX1)
        else (m0, lX0, m1, lX1) in
      match down_blocks fuel bs y0 y1 m0 lX0 d0 m1 lX1 d1 y1 with
      | None => None
      | Some (e3, i) => Some (e1 ++ e2 ++ e3 ++ down_rest y0 y1 m0 lX0 d0 m1 lX1 d1 i)
      end
  end.

(** DDATriangleBlocks (rasterize/blocks.go:10-37). *)
Definition dda_blocks (fuel : nat) (t : tri) (bs : Z) : option (list event) :=
  let '(p0, p1, p2) := sort_vertices t in
  normal_triangle_blocks fuel (px p0) (py p0) (px p1) (py p1) (px p2) (py p2) bs.

(** DDAPolygon (rasterize/polygon.go:11-15). *)
Definition dda_polygon (p : list point) : list (Z * Z) := flat_map dda_pixels (polygon_triangulate p).

(** DDAPolygonBlocks (rasterize/polygon.go:5-9). *)
Fixpoint concat_events (l : list (option (list event))) : option (list event) :=
  match l with
  | [] => Some []
  | None :: _ => None
  | Some e :: l' => option_map (app e) (concat_events l')
  end.
Definition dda_polygon_blocks (fuel : nat) (p : list point) (bs : Z) : option (list event) :=
  concat_events (map (fun t => dda_blocks fuel t bs) (polygon_triangulate p)).
