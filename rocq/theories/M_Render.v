(** Model of package render. *)
From Coq Require Import ZArith List Bool.
From Flocq Require Import IEEE754.BinarySingleNaN.
From Verif Require Import GoNum M_Norm M_Geom M_Raster M_Image.
Import ListNotations.
Open Scope Z_scope.

(** min (render/util.go:3-9). *)
Definition go_min (a b : Z) : Z := if a <? b then a else b.

(** [color.Add(image.RGBAt(x, y))] for a list of positions; [None]: index out of range. *)
Definition add_pixels (im : idata) (a : avg) (l : list (Z * Z)) : option avg :=
  fold_left (fun acc p =>
    match acc, i_at im (fst p) (snd p) with
    | Some a, Some c => Some (avg_add a c)
    | _, _ => None
    end) l (Some a).

(** The fallback when no pixel was covered (render/triangles.go:34-40, render/polygons.go:36-42). *)
Definition add_vertices (im : idata) (a : avg) (l : list point) : option avg :=
  add_pixels im a (map (fun p => (go_min (px p) (i_w im - 1), go_min (py p) (i_h im - 1))) l).

(** type TriangleData (render/triangles.go:13-16) with Triangle.ToNorm (geom/triangle.go:11-19). *)
Record tridata := TD { td_tri : npoint * npoint * npoint; td_color : rgb }.
Definition tri_to_norm (w h : Z) (t : tri) := (to_norm w h (ta t), to_norm w h (tb t), to_norm w h (tc t)).

(** The loop body of TrianglesOnImage (render/triangles.go:25-47). *)
Definition triangle_on_image (im : idata) (t : tri) : option tridata :=
  match add_pixels im avg0 (dda_pixels t) with
  | None => None
  | Some color =>
      match (if a_count color =? 0 then add_vertices im color [ta t; tb t; tc t] else Some color) with
      | None => None
      | Some color => Some (TD (tri_to_norm (i_w im) (i_h im) t) (avg_average color))
      end
  end.

(** TrianglesOnImage (render/triangles.go:20-50). *)
Definition triangles_on_image (ts : list tri) (im : idata) : option (list tridata) := mapM (triangle_on_image im) ts.

(** type PolygonData (render/polygons.go:11-14). *)
Record polydata := PD { pd_poly : list npoint; pd_color : rgb }.

(** The loop body of PolygonsOnImage (render/polygons.go:21-49); the inner loop
    over i builds the same triangles as Polygon.Triangulate. *)
Definition polygon_on_image (im : idata) (p : list point) : option polydata :=
  match add_pixels im avg0 (flat_map dda_pixels (polygon_triangulate p)) with
  | None => None
  | Some color =>
      match (if a_count color =? 0 then add_vertices im color p else Some color) with
      | None => None
      | Some color => Some (PD (polygon_to_norm (i_w im) (i_h im) p) (avg_average color))
      end
  end.

(** PolygonsOnImage (render/polygons.go:16-52). *)
Definition polygons_on_image (ps : list (list point)) (im : idata) : option (list polydata) := mapM (polygon_on_image im) ps.
