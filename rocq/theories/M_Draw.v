(** Model of triangulation.Triangulate. *)
From Coq Require Import ZArith List Bool.
From Verif Require Import GoNum M_Norm M_Geom.
Import ListNotations.
Open Scope Z_scope.

(** The points handed to the third-party package github.com/fogleman/delaunay
    (triangulation/triangulator.go:14-22); its type Point has the fields X and Y. *)
Definition draw_group (pts : list npoint) (w h : Z) : list npoint :=
  map (fun p => NP (fround (fmul (nx p) (f64_of_Z w))) (fround (fmul (ny p) (f64_of_Z h)))) pts.

(** group[i]; [None]: index out of range. *)
Definition group_at (group : list npoint) (i : Z) : option npoint :=
  if i <? 0 then None else nth_error group (Z.to_nat i).

(** The loop over the result (triangulation/triangulator.go:28-40): three indices per
    triangle, a rest of one or two indices is ignored (numTris is rounded down). *)
Fixpoint draw_loop (group : list npoint) (ix : list Z) : option (list tri) :=
  match ix with
  | i :: j :: k :: rest =>
      match group_at group i, group_at group j, group_at group k with
      | Some a, Some b, Some c =>
          match draw_loop group rest with
          | None => None
          | Some ts => Some (Tri (Pt (go_int (nx a)) (go_int (ny a))) (Pt (go_int (nx b)) (go_int (ny b))) (Pt (go_int (nx c)) (go_int (ny c))) :: ts)
          end
      | _, _, _ => None
      end
  | _ => Some []
  end.

(** Triangulate (triangulation/triangulator.go:12-43).  delaunay.Triangulate is third-party
    code and an argument here: it gets the points and returns the indices of the field
    Triangles.  [None]: it panics, or it returns nil with an error, which the code ignores, so
    that reading the field Triangles panics (line 26). *)
Definition triangulate (del : list npoint -> option (list Z)) (pts : list npoint) (w h : Z) : option (list tri) :=
  let group := draw_group pts w h in
  match del group with None => None | Some ix => draw_loop group ix end.
