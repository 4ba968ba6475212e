(** Proofs for the rasterisers, part 2: C15, C17, C18, C19, C21. *)
From Coq Require Import ZArith Reals List Bool Lia Lra Permutation Psatz.
From Flocq Require Import Core IEEE754.BinarySingleNaN.
From Verif Require Import GoNum FloatLemmas M_Norm M_Geom S_Geom M_Raster S_Raster L_Raster1.
Import ListNotations.
Open Scope Z_scope.

Lemma sort_vertices_spec t p0 p1 p2 : sort_vertices t = (p0, p1, p2) ->
  py p2 <= py p1 <= py p0 /\ Permutation [p0; p1; p2] (verts t).
Proof.
  unfold sort_vertices, verts. destruct t as [a b c]. cbn [ta tb tc].
  destruct (py b >? py a) eqn:E1; cbn iota beta;
  [destruct (py c >? py a) eqn:E2; [destruct (py c >? py b) eqn:E3|] | destruct (py c >? py b) eqn:E2; [destruct (py c >? py a) eqn:E3|]];
  intros H; injection H as <- <- <-; (split; [lia|]).
  - apply Permutation_trans with [c; a; b]; [apply perm_skip, perm_swap|].
    apply Permutation_trans with [a; c; b]; [apply perm_swap|apply perm_skip, perm_swap].
  - apply Permutation_trans with [b; a; c]; [apply perm_skip, perm_swap|apply perm_swap].
  - apply perm_swap.
  - apply Permutation_trans with [a; c; b]; [apply perm_swap|apply perm_skip, perm_swap].
  - apply perm_skip, perm_swap.
  - apply Permutation_refl.
Qed.

Lemma in_box_sorted k t p0 p1 p2 : in_box k t -> sort_vertices t = (p0, p1, p2) ->
  (Z.abs (px p0) <= 2 ^ k /\ Z.abs (py p0) <= 2 ^ k) /\ (Z.abs (px p1) <= 2 ^ k /\ Z.abs (py p1) <= 2 ^ k) /\
  (Z.abs (px p2) <= 2 ^ k /\ Z.abs (py p2) <= 2 ^ k).
Proof.
  intros H E. destruct (sort_vertices_spec _ _ _ _ E) as [_ P].
  repeat match goal with |- _ /\ _ => split end;
  match goal with |- context [px ?p] => apply (H p) | |- context [py ?p] => apply (H p) end;
  eapply Permutation_in; try exact P; cbn; auto.
Qed.

(* ------------------------------------------------------------------ *)
(** * Rows of the line rasteriser *)

Lemma map_row_lines (L R : Z -> Z) lo hi : map event_row (map (fun i => Line (L i) (R i) i) (zfor lo hi)) = zfor lo hi.
Proof. rewrite map_map. cbn [event_row]. apply map_id. Qed.

Lemma dda_lines_shape t : exists L R,
  dda_lines t = map (fun i => Line (L i) (R i) i) (zfor (ymin t) (ymax t)).
Proof.
  unfold dda_lines. destruct (sort_vertices t) as [[p0 p1] p2] eqn:E.
  destruct (sort_vertices_spec _ _ _ _ E) as [S P].
  assert (Hm : ymin t = py p2 /\ ymax t = py p0).
  { assert (forall p, In p [p0; p1; p2] <-> In p (verts t)) as I by (intros; split; apply Permutation_in; [exact P|apply Permutation_sym; exact P]).
    unfold ymin, ymax, verts in *.
    assert (A := proj2 (I (ta t)) ltac:(cbn; auto)). assert (B := proj2 (I (tb t)) ltac:(cbn; auto)).
    assert (C := proj2 (I (tc t)) ltac:(cbn; auto)).
    assert (A' := proj1 (I p0) ltac:(cbn; auto)). assert (C' := proj1 (I p2) ltac:(cbn; auto)).
    cbn in A, B, C, A', C'.
    split; destruct A as [A|[A|[A|[]]]], B as [B|[B|[B|[]]]], C as [C|[C|[C|[]]]]; rewrite <- ?A, <- ?B, <- ?C in *;
      destruct A' as [A'|[A'|[A'|[]]]], C' as [C'|[C'|[C'|[]]]]; rewrite <- ?A', <- ?C' in *; lia. }
  destruct Hm as [-> ->].
  destruct (Z.eqb_spec (py p1) (py p2)) as [E1|N1].
  { destruct (if px p2 <? px p1 then (px p2, px p1) else (px p1, px p2)) as [x1 x2].
    unfold bottom_triangle_lines, flat_triangle_lines, fill_triangle_lines. rewrite E1. cbv zeta.
    eexists (fun i => go_int (lin _ _ (i - _))), (fun i => go_int (lin _ _ (i - _))). reflexivity. }
  destruct (Z.eqb_spec (py p0) (py p1)) as [E2|N2].
  { destruct (if px p0 >? px p1 then (px p1, px p0) else (px p0, px p1)) as [x0 x1].
    unfold top_triangle_lines, flat_triangle_lines, fill_triangle_lines. cbv zeta.
    eexists (fun i => go_int (lin _ _ (i - _))), (fun i => go_int (lin _ _ (i - _))). reflexivity. }
  unfold normal_triangle_lines. cbv zeta.
  set (m0 := slope (px p2 - px p0) (py p2 - py p0)). set (m1 := slope (px p2 - px p1) (py p2 - py p1)).
  set (sw := flt m1 m0). clearbody sw. set (m2 := slope (px p1 - px p0) (py p1 - py p0)). clearbody m0 m1 m2.
  assert (G : forall L1 Q1 L2 Q2 : Z -> Z, exists L R,
    map (fun i => Line (L1 i) (Q1 i) i) (zfor (py p2) (py p1)) ++ map (fun i => Line (L2 i) (Q2 i) i) (zfor (py p1) (py p0)) =
    map (fun i => Line (L i) (R i) i) (zfor (py p2) (py p0))).
  { intros. exists (fun i => if i <? py p1 then L1 i else L2 i), (fun i => if i <? py p1 then Q1 i else Q2 i).
    rewrite (zfor_app (py p2) (py p1) (py p0)) by lia. rewrite map_app. f_equal; apply map_ext_in; intros a Ha; apply zfor_In in Ha.
    - destruct (Z.ltb_spec a (py p1)); [reflexivity|lia].
    - destruct (Z.ltb_spec a (py p1)); [lia|reflexivity]. }
  destruct sw;
  eapply (G (fun i => go_int (lin _ _ (i - _))) (fun i => go_int (lin _ _ (i - _)))
            (fun i => go_int (lin _ _ (i - _ + _))) (fun i => go_int (lin _ _ (i - _ + _)))).
Qed.

Lemma dda_lines_rows t : map event_row (dda_lines t) = zfor (ymin t) (ymax t).
Proof. destruct (dda_lines_shape t) as (L & R & ->). apply map_row_lines. Qed.

(** Only lines. *)
Lemma dda_lines_only t e : In e (dda_lines t) -> exists x0 x1 y, e = Line x0 x1 y.
Proof. destruct (dda_lines_shape t) as (L & R & ->). intros H. apply in_map_iff in H. destruct H as (i & <- & _). eauto. Qed.

Lemma dda_pixels_events t bs : dda_pixels t = flat_map (event_pixels bs) (dda_lines t).
Proof.
  unfold dda_pixels. destruct (dda_lines_shape t) as (L & R & ->).
  induction (zfor (ymin t) (ymax t)) as [|a l IH]; [reflexivity|]. cbn [map flat_map event_pixels]. rewrite IH. reflexivity.
Qed.

Lemma rows_NoDup (L R : Z -> Z) l : NoDup l -> NoDup (flat_map (fun i => line_pixels (L i) (R i) i) l).
Proof.
  induction 1 as [|a l Hn Hd IH]; [constructor|]. cbn [flat_map].
  assert (D : NoDup (line_pixels (L a) (R a) a)).
  { unfold line_pixels. apply FinFun.Injective_map_NoDup; [|apply zfor_NoDup]. intros x y E. congruence. }
  assert (Disj : forall p, In p (line_pixels (L a) (R a) a) -> ~ In p (flat_map (fun i => line_pixels (L i) (R i) i) l)).
  { intros [x y] H1 H2. unfold line_pixels in H1. apply in_map_iff in H1. destruct H1 as (x' & E & _). injection E as -> <-.
    apply in_flat_map in H2. destruct H2 as (i & Hi & H2). unfold line_pixels in H2. apply in_map_iff in H2.
    destruct H2 as (x' & E & _). injection E as _ <-. contradiction. }
  clear Hn Hd. induction D as [|p q Hp Hq IHq]; [exact IH|]. cbn [app]. constructor.
  - intros H. apply in_app_or in H. destruct H as [H|H]; [contradiction|]. apply (Disj p); [now left|exact H].
  - apply IHq. intros r Hr. apply Disj. now right.
Qed.

Lemma dda_pixels_NoDup t : NoDup (dda_pixels t).
Proof.
  unfold dda_pixels. destruct (dda_lines_shape t) as (L & R & ->).
  replace (flat_map _ (map (fun i : Z => Line (L i) (R i) i) (zfor (ymin t) (ymax t))))
    with (flat_map (fun i => line_pixels (L i) (R i) i) (zfor (ymin t) (ymax t))).
  - apply rows_NoDup, zfor_NoDup.
  - induction (zfor (ymin t) (ymax t)) as [|a l IH]; [reflexivity|]. cbn [map flat_map]. rewrite IH. reflexivity.
Qed.

(* ------------------------------------------------------------------ *)
(** * Vertex order *)
Lemma perm_verts_cases a b c t : Permutation (verts t) [a; b; c] ->
  t = Tri a b c \/ t = Tri a c b \/ t = Tri b a c \/ t = Tri b c a \/ t = Tri c a b \/ t = Tri c b a.
Proof.
  destruct t as [x y z]. unfold verts. cbn [ta tb tc]. intros P.
  assert (Hx : In x [a; b; c]) by (eapply Permutation_in; [exact P|now left]).
  assert (D : forall l1 l2 u, Permutation (x :: y :: [z]) (l1 ++ u :: l2) -> x = u -> Permutation [y; z] (l1 ++ l2)).
  { intros l1 l2 u Q ->. eapply Permutation_cons_app_inv. exact Q. }
  assert (D2 : forall u v, Permutation [y; z] [u; v] -> (y = u /\ z = v) \/ (y = v /\ z = u)).
  { intros u v Q. assert (E := Permutation_length_2 Q). tauto. }
  destruct Hx as [<-|[<-|[<-|[]]]].
  - destruct (D2 b c (D [] [b; c] _ P eq_refl)) as [[-> ->]|[-> ->]]; auto.
  - destruct (D2 a c (D [a] [c] _ P eq_refl)) as [[-> ->]|[-> ->]]; auto.
  - destruct (D2 a b (D [a; b] [] _ P eq_refl)) as [[-> ->]|[-> ->]]; auto 6.
Qed.

Lemma point_ext p q : px p = px q -> py p = py q -> p = q.
Proof. destruct p, q. cbn. congruence. Qed.

(** The line rasteriser after sorting. *)
Definition lines_of (p0 p1 p2 : point) : list event :=
  if py p1 =? py p2 then
    let '(x1, x2) := if px p2 <? px p1 then (px p2, px p1) else (px p1, px p2) in
    bottom_triangle_lines x1 x2 (py p1) (px p0) (py p0)
  else if py p0 =? py p1 then
    let '(x0, x1) := if px p0 >? px p1 then (px p1, px p0) else (px p0, px p1) in
    top_triangle_lines x0 x1 (py p0) (px p2) (py p2)
  else
    normal_triangle_lines (px p0) (py p0) (px p1) (py p1) (px p2) (py p2).

Lemma lines_of_flat p0 p1 p2 : py p0 = py p1 -> py p1 = py p2 -> lines_of p0 p1 p2 = [].
Proof.
  intros E1 E2. unfold lines_of. rewrite E2, Z.eqb_refl.
  destruct (if px p2 <? px p1 then (px p2, px p1) else (px p1, px p2)) as [x1 x2].
  unfold bottom_triangle_lines, flat_triangle_lines, fill_triangle_lines. rewrite zfor_nil by lia. reflexivity.
Qed.

Lemma lines_of_sorted_unique a b c a' b' c' :
  py c <= py b <= py a -> py c' <= py b' <= py a' -> Permutation [a; b; c] [a'; b'; c'] ->
  lines_of a b c = lines_of a' b' c'.
Proof.
  intros S S' P. pose proof (perm_verts_cases a' b' c' (Tri a b c) P) as H.
  destruct (Z.eq_dec (py a) (py c)) as [F|F].
  { rewrite lines_of_flat by lia. symmetry. apply lines_of_flat;
    decompose [or] H; match goal with E : Tri _ _ _ = _ |- _ => injection E; intros; subst; lia end. }
  decompose [or] H; clear H; match goal with E : Tri _ _ _ = _ |- _ => injection E; intros; subst; clear E end; try lia;
    try reflexivity.
  - (* c and b swapped: equal y *)
    assert (E : py b' = py c') by lia. unfold lines_of. rewrite E, Z.eqb_refl.
    destruct (Z.ltb_spec (px c') (px b')), (Z.ltb_spec (px b') (px c')); try lia; try reflexivity.
    replace (px c') with (px b') by lia. reflexivity.
  - assert (E : py a' = py b') by lia. assert (py b' <> py c') by lia. unfold lines_of.
    rewrite E, Z.eqb_refl. destruct (Z.eqb_spec (py b') (py c')); [lia|].
    rewrite !Z.gtb_ltb.
    destruct (Z.ltb_spec (px b') (px a')), (Z.ltb_spec (px a') (px b')); try lia; try reflexivity.
    replace (px a') with (px b') by lia. reflexivity.
Qed.

Lemma dda_lines_of t : exists a b c, dda_lines t = lines_of a b c /\ py c <= py b <= py a /\ Permutation [a; b; c] (verts t).
Proof.
  destruct (sort_vertices t) as [[a b] c] eqn:E. exists a, b, c. split.
  - unfold dda_lines. rewrite E. reflexivity.
  - apply (sort_vertices_spec _ _ _ _ E).
Qed.

Lemma dda_lines_perm t t' : Permutation (verts t) (verts t') -> dda_lines t = dda_lines t'.
Proof.
  intros P. destruct (dda_lines_of t) as (a & b & c & -> & S & Q). destruct (dda_lines_of t') as (a' & b' & c' & -> & S' & Q').
  apply lines_of_sorted_unique; auto. eapply Permutation_trans; [exact Q|]. eapply Permutation_trans; [exact P|].
  apply Permutation_sym. exact Q'.
Qed.
