(** Specifications for the fitness functions and the parallel evaluator. *)
From Coq Require Import ZArith List Bool Permutation.
From Verif Require Import GoNum M_Norm M_Slice M_Geom M_Image M_Raster S_Raster M_Delaunay S_Delaunay M_Algo M_Fitness.
Import ListNotations.
Open Scope Z_scope.

(** The fitness of a triangulation without any cache. *)
Definition plain_sums (im : fimg) (ts : list dtri) : option (f64 * f64) :=
  foldM (fun (da : f64 * f64) t => match tri_diff im (d_a t) (d_b t) (d_c t) with
                     | None => None
                     | Some v => Some (fadd (fst da) v, fadd (snd da) (tri_area (d_a t) (d_b t) (d_c t))) end) ts (f0, f0).
Definition plain_fitness (im : fimg) (d : delaunay) : option f64 :=
  match plain_sums im (iter_triangles d) with
  | None => None
  | Some (diff, area) =>
      Some (fsub f1 (fdiv (fadd diff (fmul (f64_of_Z max_pixel_difference) (fsub (f64_of_Z (i64 (fi_w im * fi_h im))) area))) (fi_max im)))
  end.

(** Operations on an evaluator, and running them: the fitnesses calculated. *)
Inductive eop := OCalc (i : nat) (pts : list npoint) (muts : list mut) | OUpdate (i : nat) | OPrepare | OBase (i j : nat) | OSwap (i j : nat).
Definition eop_step {E} (ev : evaluator E) (s : E * list f64) (o : eop) : option (E * list f64) :=
  let (e, fs) := s in
  match o with
  | OCalc i pts muts => option_map (fun ef => (fst ef, fs ++ [snd ef])) (ev_calc ev e i pts muts)
  | OUpdate i => option_map (fun e' => (e', fs)) (ev_update ev e i)
  | OPrepare => option_map (fun e' => (e', fs)) (ev_prepare ev e)
  | OBase i j => option_map (fun e' => (e', fs)) (ev_base ev e i j)
  | OSwap i j => option_map (fun e' => (e', fs)) (ev_swap ev e i j)
  end.
Definition eop_run {E} (ev : evaluator E) (e : E) (ops : list eop) : option (E * list f64) := foldM (eop_step ev) ops (e, []).

(** An evaluator that keeps an object (a triangulation) and a base per function, and no
    cache; [next tri base pts muts] is the object it evaluates and [fit] its fitness. *)
Record keeper (T : Type) := Bare { b_funs : list (option T * option nat); b_order : list nat }.
Arguments Bare {T}. Arguments b_funs {T}. Arguments b_order {T}.
Definition b_at {T} (p : keeper T) (i : nat) : option (nat * (option T * option nat)) :=
  match nth_error (b_order p) i with None => None | Some id => option_map (fun f => (id, f)) (nth_error (b_funs p) id) end.
Definition keep_ev {T} (next : option T -> option T -> list npoint -> list mut -> option T) (fit : T -> option f64) : evaluator (keeper T) :=
  Ev (fun p i pts muts =>
        match b_at p i with
        | None => None
        | Some (id, (tri, base)) =>
            if match base with Some b => (b =? id)%nat | None => false end then None else
            let from := match base with None => None | Some b => match nth_error (b_funs p) b with None => None | Some g => fst g end end in
            match next tri from pts muts with
            | None => None
            | Some d => option_map (fun f => (Bare (set_nth id (Some d, None) (b_funs p)) (b_order p), f)) (fit d)
            end
        end)
     (fun p i => option_map (fun _ => p) (b_at p i))
     (fun p => Some p)
     (fun p i j =>
        match b_at p i, b_at p j with
        | Some (id, (tri, _)), Some (jd, (trj, _)) =>
            Some (Bare (set_nth id (tri, match trj with None => None | Some _ => Some jd end) (b_funs p)) (b_order p))
        | _, _ => None
        end)
     (fun p i j => option_map (fun o => Bare (b_funs p) o) (swap_at i j (b_order p))).
Definition new_keeper (T : Type) (n : nat) : keeper T := Bare (repeat (None, None) n) (seq 0 n).

(** The one keeping triangulations. *)
Definition bare := keeper delaunay.
Definition bare_ev (im : fimg) (srt : point -> list point -> option (list point)) : evaluator bare := keep_ev (next_tri im srt) (plain_fitness im).
Definition new_bare (n : nat) : bare := new_keeper delaunay n.

(** Calculate and Update alternate on every function, as in the algorithms; [dirty] says
    which positions have been calculated since their last update. *)
Fixpoint alternating (dirty : list bool) (ops : list eop) : Prop :=
  match ops with
  | [] => True
  | OCalc i _ _ :: r => nth_error dirty i = Some false /\ alternating (set_nth i true dirty) r
  | OUpdate i :: r => nth_error dirty i = Some true /\ alternating (set_nth i false dirty) r
  | OSwap i j :: r => match swap_at i j dirty with Some d => alternating d r | None => False end
  | _ :: r => alternating dirty r
  end.

(** The sums over a list of pixels of an image, each pixel as fromImage stores it. *)
Definition stored (im : idata) (p : Z * Z) : pixel := match i_at im (fst p) (snd p) with Some c => to_pixel c | None => Px 0 0 0 0 end.
Definition sum_over {A} (f : A -> Z) (l : list A) : Z := fold_right (fun a s => f a + s) 0 l.
Definition pixel_sums (im : idata) (l : list (Z * Z)) : sums :=
  Sums (Z.of_nat (length l)) (sum_over (fun p => p_r (stored im p)) l) (sum_over (fun p => p_g (stored im p)) l)
       (sum_over (fun p => p_b (stored im p)) l) (sum_over (fun p => p_sq (stored im p)) l).

(** A triangle of the image: corners in [0,w]x[0,h], area not 0. *)
Definition image_tri (im : idata) (t : tri) : Prop :=
  tarea t <> 0 /\ forall p, In p (verts t) -> 0 <= px p <= i_w im /\ 0 <= py p <= i_h im.

(** Where the function at [pos] is after the operations, if none of them is SetBase on it. *)
Fixpoint untouched (pos : nat) (ops : list eop) : option nat :=
  match ops with
  | [] => Some pos
  | OBase i _ :: r => if (i =? pos)%nat then None else untouched pos r
  | OSwap i j :: r => untouched (if (pos =? i)%nat then j else if (pos =? j)%nat then i else pos) r
  | _ :: r => untouched pos r
  end.
Definition calcs (ops : list eop) : nat := length (filter (fun o => match o with OCalc _ _ _ => true | _ => false end) ops).

(** Triangulations made by Insert and Remove only, with the points inserted and not removed. *)
Inductive built (w h : Z) : list point -> delaunay -> Prop :=
| built_new d : new_delaunay w h = Some d -> built w h [] d
| built_insert P d p d' : built w h P d -> in_image w h p -> mult P p < 65535 -> insert d p = Some d' -> built w h (p :: P) d'
| built_remove P d sort p P' d' : built w h P d -> in_image w h p -> take_out p P = Some P' -> (forall l l', sort l = Some l' -> Permutation l l') ->
    remove sort d p = Some d' -> built w h P' d'.

(** Equal but for the two counters. *)
Definition alike (d e : delaunay) : Prop :=
  d_tris d = d_tris e /\ d_grid d = d_grid e /\ d_pmap d = d_pmap e /\ d_free d = d_free e /\ d_super d = d_super e.

(** The triangulation [d] is one of exactly the points [pts], rounded to pixels. *)
Definition tri_of (im : fimg) (pts : list npoint) (d : delaunay) : Prop :=
  exists P d0, built (fi_w im) (fi_h im) P d0 /\ alike d d0 /\ Permutation P (map (mut_point im) pts).
