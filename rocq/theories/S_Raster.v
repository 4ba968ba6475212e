(** Specifications for the rasterisers. *)
From Coq Require Import ZArith List Bool.
From Verif Require Import M_Geom M_Raster S_Geom.
Import ListNotations.
Open Scope Z_scope.

(** The pixels one call of [line] or [block] stands for. *)
Definition event_pixels (bs : Z) (e : event) : list (Z * Z) :=
  match e with
  | Line x0 x1 y => map (fun x => (x, y)) (zfor x0 x1)
  | Block x y => flat_map (fun b => map (fun a => (a, b)) (zfor x (x + bs))) (zfor y (y + bs))
  end.

Definition verts (t : tri) : list point := [ta t; tb t; tc t].

Definition in_box (k : Z) (t : tri) : Prop := forall p, In p (verts t) -> Z.abs (px p) <= 2 ^ k /\ Z.abs (py p) <= 2 ^ k.

Definition xmin (t : tri) : Z := Z.min (px (ta t)) (Z.min (px (tb t)) (px (tc t))).
Definition xmax (t : tri) : Z := Z.max (px (ta t)) (Z.max (px (tb t)) (px (tc t))).
Definition ymin (t : tri) : Z := Z.min (py (ta t)) (Z.min (py (tb t)) (py (tc t))).
Definition ymax (t : tri) : Z := Z.max (py (ta t)) (Z.max (py (tb t)) (py (tc t))).

Definition event_row (e : event) : Z := match e with Line _ _ y => y | Block _ y => y end.

(** Twice the signed area of a triangle. *)
Definition tarea (t : tri) : Z := area2 (ta t) (tb t) (tc t).

(** The three directed edges of a triangle. *)
Definition tedges (t : tri) : list (point * point) := [(ta t, tb t); (tb t, tc t); (tc t, ta t)].

Definition point_eqb (a b : point) : bool := (px a =? px b) && (py a =? py b).
Definition edge_eqb (e f : point * point) : bool := point_eqb (fst e) (fst f) && point_eqb (snd e) (snd f).
Definition pixel_eqb (a b : Z * Z) : bool := (fst a =? fst b) && (snd a =? snd b).

Definition count {A} (f : A -> bool) (l : list A) : Z := Z.of_nat (length (filter f l)).

(** How often the directed edge a->b occurs in a family of triangles, minus how
    often b->a occurs: zero for an edge with one triangle on each side. *)
Definition net (F : list tri) (a b : point) : Z :=
  count (edge_eqb (a, b)) (flat_map tedges F) - count (edge_eqb (b, a)) (flat_map tedges F).

(** How often a family of triangles covers a pixel. *)
Definition coverage (F : list tri) (x y : Z) : Z := count (pixel_eqb (x, y)) (flat_map dda_pixels F).
