(** Proofs for the rasterisers, part 5: rows in terms of edges, coverage of triangles. *)
From Coq Require Import ZArith Reals List Bool Lia Lra Permutation Psatz.
From Flocq Require Import Core IEEE754.BinarySingleNaN.
From Verif Require Import GoNum FloatLemmas M_Norm M_Geom S_Geom M_Raster S_Raster L_Raster1 L_Raster2 L_Raster3 L_Raster4.
Import ListNotations.
Open Scope Z_scope.

(** The two edges crossing row [y] of the sorted triangle p2 (top) p1 p0 (bottom). *)
Definition long_e (p0 p1 p2 : point) (y : Z) : Z := Ex p2 p0 y.
Definition short_e (p0 p1 p2 : point) (y : Z) : Z := if y <? py p1 then Ex p2 p1 y else Ex p1 p0 y.

Definition row_ok (p0 p1 p2 : point) (flip : bool) (e : event) : Prop :=
  match e with
  | Line l r y => py p2 <= y < py p0 /\
      if flip then l = short_e p0 p1 p2 y /\ r = long_e p0 p1 p2 y else l = long_e p0 p1 p2 y /\ r = short_e p0 p1 p2 y
  | Block _ _ => False
  end.

Lemma Forall_rows (P : event -> Prop) (L R : Z -> Z) lo hi :
  (forall i, lo <= i < hi -> P (Line (L i) (R i) i)) -> Forall P (map (fun i => Line (L i) (R i) i) (zfor lo hi)).
Proof. intros H. apply Forall_forall. intros e He. apply in_map_iff in He. destruct He as (i & <- & Hi). apply H. now apply zfor_In. Qed.

Definition rdet (p0 p1 p2 : point) : Z := (px p1 - px p2) * (py p0 - py p2) - (px p0 - px p2) * (py p1 - py p2).

(** Any triangle (k <= 24): the rows are the two edges in some order; [flip]
    tells whether the long edge is on the right. *)
Lemma lines_rows p0 p1 p2 : pbox 24 p0 -> pbox 24 p1 -> pbox 24 p2 -> py p2 <= py p1 <= py p0 ->
  exists flip, Forall (row_ok p0 p1 p2 flip) (lines_of p0 p1 p2) /\
    (pbox 15 p0 -> pbox 15 p1 -> pbox 15 p2 -> 0 < rdet p0 p1 p2 -> flip = false) /\
    (pbox 15 p0 -> pbox 15 p1 -> pbox 15 p2 -> rdet p0 p1 p2 < 0 -> flip = true).
Proof.
  intros H0 H1 H2 HS. destruct p0 as [x0 y0], p1 as [x1 y1], p2 as [x2 y2].
  unfold pbox in *. cbn [px py] in *. unfold rdet, lines_of. cbn [px py].
  destruct (Z.eqb_spec y1 y2) as [E12|N12].
  - subst y2. exists (x1 <=? x2).
    split; [|split; intros _ _ _ D; rewrite Z.sub_diag, Z.mul_0_r, Z.sub_0_r in D].
    2:{ destruct (Z.leb_spec x1 x2); [nia|reflexivity]. }
    2:{ destruct (Z.leb_spec x1 x2); [reflexivity|nia]. }
    destruct (Z.ltb_spec x2 x1) as [L|L].
    + unfold bottom_triangle_lines, flat_triangle_lines, fill_triangle_lines.
      apply (Forall_rows _ (fun i => go_int (lin _ _ (i - _))) (fun i => go_int (lin _ _ (i - _)))). intros i Hi.
      unfold row_ok, long_e, short_e. cbn [px py]. split; [lia|]. destruct (Z.leb_spec x1 x2); [lia|].
      destruct (Z.ltb_spec i y1); [lia|]. split; reflexivity.
    + unfold bottom_triangle_lines, flat_triangle_lines, fill_triangle_lines.
      apply (Forall_rows _ (fun i => go_int (lin _ _ (i - _))) (fun i => go_int (lin _ _ (i - _)))). intros i Hi.
      unfold row_ok, long_e, short_e. cbn [px py]. split; [lia|]. destruct (Z.leb_spec x1 x2); [|lia].
      destruct (Z.ltb_spec i y1); [lia|]. split; reflexivity.
  - destruct (Z.eqb_spec y0 y1) as [E01|N01].
    + subst y1. exists (x1 <? x0). rewrite Z.gtb_ltb.
      split; [|split; intros _ _ _ D; rewrite <- Z.mul_sub_distr_r in D].
      2:{ destruct (Z.ltb_spec x1 x0); [nia|reflexivity]. }
      2:{ destruct (Z.ltb_spec x1 x0); [reflexivity|nia]. }
      destruct (Z.ltb_spec x1 x0) as [L|L].
      * unfold top_triangle_lines, flat_triangle_lines, fill_triangle_lines.
        apply (Forall_rows _ (fun i => go_int (lin _ _ (i - _))) (fun i => go_int (lin _ _ (i - _)))). intros i Hi.
        unfold row_ok, long_e, short_e. cbn [px py]. split; [lia|].
        destruct (Z.ltb_spec i y0); [|lia]. split; reflexivity.
      * unfold top_triangle_lines, flat_triangle_lines, fill_triangle_lines.
        apply (Forall_rows _ (fun i => go_int (lin _ _ (i - _))) (fun i => go_int (lin _ _ (i - _)))). intros i Hi.
        unfold row_ok, long_e, short_e. cbn [px py]. split; [lia|].
        destruct (Z.ltb_spec i y0); [|lia]. split; reflexivity.
    + unfold normal_triangle_lines. cbv zeta.
      set (m0 := slope (x2 - x0) (y2 - y0)). set (m1 := slope (x2 - x1) (y2 - y1)).
      assert (K0 : okm m0) by (apply okm_slope; lia). assert (K1 : okm m1) by (apply okm_slope; lia).
      assert (FS : flt m1 m0 = Rlt_bool (R64 m1) (R64 m0)) by (apply flt_R; [apply K1|apply K0]).
      exists (flt m1 m0). split; [|split; intros A0 A1 A2 D; rewrite FS].
      * destruct (flt m1 m0); cbn iota beta; apply Forall_app; split;
          [ apply (Forall_rows _ (fun i => go_int (lin _ _ (i - _))) (fun i => go_int (lin _ _ (i - _))))
          | apply (Forall_rows _ (fun i => go_int (lin _ _ (i - _ + _))) (fun i => go_int (lin _ _ (i - _ + _))))
          | apply (Forall_rows _ (fun i => go_int (lin _ _ (i - _))) (fun i => go_int (lin _ _ (i - _))))
          | apply (Forall_rows _ (fun i => go_int (lin _ _ (i - _ + _))) (fun i => go_int (lin _ _ (i - _ + _)))) ];
        intros i Hi; unfold row_ok, long_e, short_e; cbn [px py]; (split; [lia|]); destruct (Z.ltb_spec i y1); try lia;
        unfold Ex, evf; cbn [px py]; rewrite ?Z.add_0_r; replace (i - y1 + (y1 - y2)) with (i - y2) by lia; split; reflexivity.
      * destruct (Rlt_bool_spec (R64 m1) (R64 m0)) as [L|L]; [exfalso|reflexivity].
        assert (M : (R64 m0 < R64 m1)%R) by (apply slope_sep; try lia; nia). lra.
      * apply Rlt_bool_true. apply slope_sep; try lia; nia.
Qed.

Lemma rdet_IZR p0 p1 p2 : (IZR (rdet p0 p1 p2) =
  (IZR (px p1) - IZR (px p2)) * (IZR (py p0) - IZR (py p2)) - (IZR (px p0) - IZR (px p2)) * (IZR (py p1) - IZR (py p2)))%R.
Proof. unfold rdet. rewrite <- !minus_IZR, <- !mult_IZR, <- minus_IZR. reflexivity. Qed.

Lemma exact_diff_top p0 p1 p2 y : py p2 < py p1 -> py p2 < py p0 ->
  (exact p2 p1 y - exact p2 p0 y = IZR (rdet p0 p1 p2) * IZR (y - py p2) / (IZR (py p1 - py p2) * IZR (py p0 - py p2)))%R.
Proof.
  intros A B. apply IZR_lt in A, B. rewrite rdet_IZR. unfold exact. rewrite !minus_IZR. field. lra.
Qed.

Lemma exact_diff_bot p0 p1 p2 y : py p1 < py p0 -> py p2 < py p0 ->
  (exact p1 p0 y - exact p2 p0 y = IZR (rdet p0 p1 p2) * IZR (py p0 - y) / (IZR (py p0 - py p1) * IZR (py p0 - py p2)))%R.
Proof.
  intros A B. apply IZR_lt in A, B. rewrite rdet_IZR. unfold exact. rewrite !minus_IZR. field. lra.
Qed.

(** For a triangle of non-zero area the row is not inverted. *)
Lemma row_order p0 p1 p2 y : pbox 15 p0 -> pbox 15 p1 -> pbox 15 p2 -> py p2 <= py p1 <= py p0 -> py p2 <= y < py p0 ->
  (0 < rdet p0 p1 p2 -> long_e p0 p1 p2 y <= short_e p0 p1 p2 y) /\
  (rdet p0 p1 p2 < 0 -> short_e p0 p1 p2 y <= long_e p0 p1 p2 y).
Proof.
  intros H0 H1 H2 HS Hy. unfold long_e, short_e.
  destruct (Z.ltb_spec y (py p1)) as [Hy1|Hy1].
  - assert (P1 : (0 < IZR (py p1 - py p2))%R) by (apply IZR_lt; lia).
    assert (P2 : (0 < IZR (py p0 - py p2))%R) by (apply IZR_lt; lia).
    assert (P3 : (0 < / (IZR (py p1 - py p2) * IZR (py p0 - py p2)))%R) by (apply Rinv_0_lt_compat, Rmult_lt_0_compat; assumption).
    destruct (Z.eq_dec y (py p2)) as [->|N].
    { assert (Ex p2 p0 (py p2) = Ex p2 p1 (py p2)); [|split; lia].
      unfold pbox in *. rewrite !(Ex_R 24) by (unfold pbox; lia). unfold evR. rewrite Z.sub_diag, !linR_0. reflexivity. }
    pose proof (exact_diff_top p0 p1 p2 y ltac:(lia) ltac:(lia)) as D. unfold Rdiv in D.
    assert (P4 : (0 < IZR (y - py p2))%R) by (apply IZR_lt; lia).
    split; intros HD; apply IZR_lt in HD; apply edge_sep; auto; try lia.
    + assert ((0 < IZR (rdet p0 p1 p2) * IZR (y - py p2) * / (IZR (py p1 - py p2) * IZR (py p0 - py p2)))%R) by (repeat apply Rmult_lt_0_compat; assumption). lra.
    + assert ((0 < - IZR (rdet p0 p1 p2) * IZR (y - py p2) * / (IZR (py p1 - py p2) * IZR (py p0 - py p2)))%R) by (repeat apply Rmult_lt_0_compat; lra). lra.
  - assert (P1 : (0 < IZR (py p0 - py p1))%R) by (apply IZR_lt; lia).
    assert (P2 : (0 < IZR (py p0 - py p2))%R) by (apply IZR_lt; lia).
    assert (P3 : (0 < / (IZR (py p0 - py p1) * IZR (py p0 - py p2)))%R) by (apply Rinv_0_lt_compat, Rmult_lt_0_compat; assumption).
    pose proof (exact_diff_bot p0 p1 p2 y ltac:(lia) ltac:(lia)) as D. unfold Rdiv in D.
    assert (P4 : (0 < IZR (py p0 - y))%R) by (apply IZR_lt; lia).
    split; intros HD; apply IZR_lt in HD; apply edge_sep; auto; try lia.
    + assert ((0 < IZR (rdet p0 p1 p2) * IZR (py p0 - y) * / (IZR (py p0 - py p1) * IZR (py p0 - py p2)))%R) by (repeat apply Rmult_lt_0_compat; assumption). lra.
    + assert ((0 < - IZR (rdet p0 p1 p2) * IZR (py p0 - y) * / (IZR (py p0 - py p1) * IZR (py p0 - py p2)))%R) by (repeat apply Rmult_lt_0_compat; lra). lra.
Qed.

(** C16 and the bounding box. *)
Lemma edge_in_box t p0 p1 p2 y : in_box 24 t -> sort_vertices t = (p0, p1, p2) -> py p2 <= y < py p0 ->
  (xmin t <= long_e p0 p1 p2 y <= xmax t) /\ (xmin t <= short_e p0 p1 p2 y <= xmax t).
Proof.
  intros HB E Hy. destruct (sort_vertices_spec _ _ _ _ E) as [S P]. destruct (in_box_sorted _ _ _ _ _ HB E) as (B0 & B1 & B2).
  assert (X : forall p, In p [p0; p1; p2] -> xmin t <= px p <= xmax t).
  { intros p Hp. apply (Permutation_in _ P) in Hp. unfold verts in Hp. cbn in Hp. unfold xmin, xmax.
    destruct Hp as [<-|[<-|[<-|[]]]]; lia. }
  assert (X0 := X p0 ltac:(cbn; auto)). assert (X1 := X p1 ltac:(cbn; auto)). assert (X2 := X p2 ltac:(cbn; auto)).
  unfold long_e, short_e.
  pose proof (edge_range 24 p2 p0 y ltac:(lia) B2 B0 ltac:(lia) ltac:(lia)).
  split; [lia|]. destruct (Z.ltb_spec y (py p1)).
  - pose proof (edge_range 24 p2 p1 y ltac:(lia) B2 B1 ltac:(lia) ltac:(lia)). lia.
  - pose proof (edge_range 24 p1 p0 y ltac:(lia) B1 B0 ltac:(lia) ltac:(lia)). lia.
Qed.

Lemma ybounds t p0 p1 p2 : sort_vertices t = (p0, p1, p2) -> ymin t = py p2 /\ ymax t = py p0.
Proof.
  intros E. pose proof (dda_lines_rows t) as R. destruct (sort_vertices_spec _ _ _ _ E) as [S P].
  assert (forall p, In p [p0; p1; p2] <-> In p (verts t)) as I by (intros; split; apply Permutation_in; [exact P|apply Permutation_sym; exact P]).
  unfold ymin, ymax, verts in *.
  assert (A := proj2 (I (ta t)) ltac:(cbn; auto)). assert (B := proj2 (I (tb t)) ltac:(cbn; auto)).
  assert (C := proj2 (I (tc t)) ltac:(cbn; auto)).
  assert (A' := proj1 (I p0) ltac:(cbn; auto)). assert (C' := proj1 (I p2) ltac:(cbn; auto)).
  clear I R P E. cbn in A, B, C, A', C'.
  split; destruct A as [A|[A|[A|[]]]], B as [B|[B|[B|[]]]], C as [C|[C|[C|[]]]]; rewrite <- ?A, <- ?B, <- ?C in *;
    destruct A' as [A'|[A'|[A'|[]]]], C' as [C'|[C'|[C'|[]]]]; rewrite <- ?A', <- ?C' in *; lia.
Qed.

Lemma tarea_rdet t p0 p1 p2 : sort_vertices t = (p0, p1, p2) -> Z.abs (tarea t) = Z.abs (rdet p0 p1 p2).
Proof.
  intros E. destruct (sort_vertices_spec _ _ _ _ E) as [_ P].
  pose proof (perm_verts_cases (ta t) (tb t) (tc t) (Tri p0 p1 p2) P) as H. unfold tarea, area2, rdet.
  decompose [or] H; match goal with Q : Tri _ _ _ = _ |- _ => injection Q; intros; subst end; lia.
Qed.

Lemma lines_in_box t x0 x1 y : in_box 24 t -> In (Line x0 x1 y) (dda_lines t) ->
  ymin t <= y < ymax t /\ xmin t <= x0 <= xmax t /\ xmin t <= x1 <= xmax t.
Proof.
  intros HB H. destruct (sort_vertices t) as [[p0 p1] p2] eqn:E.
  destruct (ybounds _ _ _ _ E) as [-> ->]. destruct (sort_vertices_spec _ _ _ _ E) as [S P].
  destruct (in_box_sorted _ _ _ _ _ HB E) as (B0 & B1 & B2).
  destruct (lines_rows p0 p1 p2 B0 B1 B2 S) as (fl & F & _).
  unfold dda_lines in H. rewrite E in H. change (In (Line x0 x1 y) (lines_of p0 p1 p2)) in H.
  rewrite Forall_forall in F. specialize (F _ H). cbn in F. destruct F as [Hy F].
  destruct (edge_in_box t p0 p1 p2 y HB E Hy). split; [exact Hy|]. destruct fl; destruct F as [-> ->]; auto.
Qed.

Lemma in_box_mono k k' t : k <= k' -> in_box k t -> in_box k' t.
Proof. intros Hk H p Hp. destruct (H p Hp). assert (2 ^ k <= 2 ^ k') by (apply Z.pow_le_mono_r; lia). lia. Qed.

Lemma lines_ordered t x0 x1 y : in_box 15 t -> tarea t <> 0 -> In (Line x0 x1 y) (dda_lines t) -> x0 <= x1.
Proof.
  intros HB HA H. destruct (sort_vertices t) as [[p0 p1] p2] eqn:E.
  destruct (sort_vertices_spec _ _ _ _ E) as [S P].
  destruct (in_box_sorted _ _ _ _ _ (in_box_mono 15 24 t ltac:(lia) HB) E) as (B0 & B1 & B2).
  destruct (in_box_sorted _ _ _ _ _ HB E) as (C0 & C1 & C2).
  pose proof (tarea_rdet _ _ _ _ E) as D.
  destruct (lines_rows p0 p1 p2 B0 B1 B2 S) as (fl & F & F1 & F2).
  unfold dda_lines in H. rewrite E in H. change (In (Line x0 x1 y) (lines_of p0 p1 p2)) in H.
  rewrite Forall_forall in F. specialize (F _ H). cbn in F. destruct F as [Hy F].
  destruct (row_order p0 p1 p2 y C0 C1 C2 S Hy) as [O1 O2].
  destruct (Z.lt_total 0 (rdet p0 p1 p2)) as [L|[L|L]]; [| lia |].
  - rewrite (F1 C0 C1 C2 L) in F. destruct F as [-> ->]. auto.
  - rewrite (F2 C0 C1 C2 L) in F. destruct F as [-> ->]. auto.
Qed.

(* ------------------------------------------------------------------ *)
(** * Coverage as a sum over directed edges *)

(** Contribution of the directed edge a->b to pixel (x,y). *)
Definition sig (x y : Z) (e : point * point) : Z :=
  let (a, b) := e in
  if py a <? py b then b2z ((py a <=? y) && (y <? py b) && (x <? Ex a b y))
  else if py b <? py a then - b2z ((py b <=? y) && (y <? py a) && (x <? Ex b a y))
  else 0.

Lemma sig_antisym x y a b : sig x y (b, a) = - sig x y (a, b).
Proof. unfold sig. destruct (Z.ltb_spec (py a) (py b)), (Z.ltb_spec (py b) (py a)); try lia. Qed.

Definition cyc x y a b c := sig x y (a, b) + sig x y (b, c) + sig x y (c, a).

Definition cov1 (t : tri) (x y : Z) : Z := count (pixel_eqb (x, y)) (dda_pixels t).

Lemma cov1_lines t x y : cov1 t x y = cov 1 x y (dda_lines t).
Proof. unfold cov1, cov. rewrite (dda_pixels_events t 1). reflexivity. Qed.

Lemma cov_list (P : Z -> Z -> Z -> Prop) l x y : (forall l0 r0 y0, In (Line l0 r0 y0) l -> P l0 r0 y0) ->
  NoDup (map event_row l) -> (forall e, In e l -> exists a b c, e = Line a b c) ->
  (cov 1 x y l = 0 /\ (~ In y (map event_row l) \/ exists a b, In (Line a b y) l /\ ~ (a <= x < b))) \/
  (cov 1 x y l = 1 /\ exists a b, In (Line a b y) l /\ a <= x < b).
Proof.
  intros HP. induction l as [|e l IH]; intros ND HL.
  - left. split; [reflexivity|]. left. intros [].
  - destruct (HL e (or_introl eq_refl)) as (a & b & c & ->). cbn [map event_row] in *. inversion ND as [|? ? N1 N2]; subst.
    rewrite cov_cons, cov_line.
    destruct IH as [[E O]|[E (a' & b' & I & O)]]; auto.
    { intros; apply HP; now right. } { intros e He. apply HL. now right. }
    + rewrite E. destruct (Z.eqb_spec y c) as [->|N].
      * destruct (Z.leb_spec a x), (Z.ltb_spec x b); cbn [andb b2z];
          [right; split; [lia|]; exists a, b; split; [now left|lia]|left; split; [lia|]; right; exists a, b; split; [now left|lia]..].
      * left. cbn [andb b2z]. split; [lia|]. destruct O as [O|(a' & b' & I & O)].
        -- left. intros [Q|Q]; [congruence|contradiction].
        -- right. exists a', b'. split; [now right|exact O].
    + right. assert (y <> c). { intros ->. apply N1. apply in_map_iff. exists (Line a' b' c). auto. }
      destruct (Z.eqb_spec y c); [contradiction|]. cbn [andb b2z]. split; [lia|]. exists a', b'. split; [now right|exact O].
Qed.

Lemma cov1_row t x y l r : In (Line l r y) (dda_lines t) -> cov1 t x y = b2z ((l <=? x) && (x <? r)).
Proof.
  intros H. rewrite cov1_lines. destruct (dda_lines_shape t) as (L & R & E). rewrite E in *.
  rewrite cov_rows. apply in_map_iff in H. destruct H as (i & Q & Hi). injection Q as <- <- ->. apply zfor_In in Hi.
  destruct (Z.leb_spec (ymin t) y), (Z.ltb_spec y (ymax t)); try lia. cbn [andb]. reflexivity.
Qed.

Lemma cov1_norow t x y : ~ (ymin t <= y < ymax t) -> cov1 t x y = 0.
Proof.
  intros H. rewrite cov1_lines. destruct (dda_lines_shape t) as (L & R & ->). rewrite cov_rows.
  destruct (Z.leb_spec (ymin t) y), (Z.ltb_spec y (ymax t)); try lia; reflexivity.
Qed.

Lemma row_exists t y : ymin t <= y < ymax t -> exists l r, In (Line l r y) (dda_lines t).
Proof.
  intros H. destruct (dda_lines_shape t) as (L & R & ->). exists (L y), (R y). apply in_map_iff. exists y.
  split; [reflexivity|]. apply zfor_In. exact H.
Qed.

Lemma cov1_sorted t x y p0 p1 p2 : in_box 15 t -> sort_vertices t = (p0, p1, p2) -> rdet p0 p1 p2 <> 0 ->
  cov1 t x y = Z.sgn (rdet p0 p1 p2) * cyc x y p2 p1 p0.
Proof.
  intros HB E HD. destruct (sort_vertices_spec _ _ _ _ E) as [S P]. destruct (ybounds _ _ _ _ E) as [Y1 Y2].
  destruct (in_box_sorted _ _ _ _ _ (in_box_mono 15 24 t ltac:(lia) HB) E) as (B0 & B1 & B2).
  destruct (in_box_sorted _ _ _ _ _ HB E) as (C0 & C1 & C2).
  assert (S02 : py p2 < py p0).
  { apply Z.nle_gt. intros Q. apply HD. unfold rdet. replace (py p0) with (py p2) by lia. replace (py p1) with (py p2) by lia. ring. }
  destruct (Z_lt_le_dec y (py p2)) as [Hy|Hy]; [|destruct (Z_lt_le_dec y (py p0)) as [Hy'|Hy']].
  - rewrite cov1_norow by lia. unfold cyc, sig.
    destruct (Z.leb_spec (py p2) y), (Z.leb_spec (py p1) y), (Z.leb_spec (py p0) y); try lia. cbn [andb b2z Z.opp].
    destruct (py p2 <? py p1), (py p1 <? py p2), (py p1 <? py p0), (py p0 <? py p1), (py p0 <? py p2), (py p2 <? py p0); cbn; lia.
  - destruct (row_exists t y) as (l & r & I); [lia|]. rewrite (cov1_row t x y l r I).
    destruct (lines_rows p0 p1 p2 B0 B1 B2 S) as (fl & F & F1 & F2).
    unfold dda_lines in I. rewrite E in I. change (In (Line l r y) (lines_of p0 p1 p2)) in I.
    rewrite Forall_forall in F. specialize (F _ I). cbn in F. destruct F as [_ F].
    destruct (row_order p0 p1 p2 y C0 C1 C2 S ltac:(lia)) as [O1 O2].
    assert (CY : cyc x y p2 p1 p0 = b2z (x <? short_e p0 p1 p2 y) - b2z (x <? long_e p0 p1 p2 y)).
    { unfold cyc, sig, short_e, long_e.
      destruct (Z.ltb_spec (py p0) (py p2)); [lia|]. destruct (Z.ltb_spec (py p2) (py p0)); [|lia].
      destruct (Z.leb_spec (py p2) y); [|lia]. destruct (Z.ltb_spec y (py p0)); [|lia]. cbn [andb].
      destruct (Z.ltb_spec (py p2) (py p1)), (Z.ltb_spec (py p1) (py p2)), (Z.ltb_spec (py p1) (py p0)), (Z.ltb_spec (py p0) (py p1)); try lia;
      destruct (Z.ltb_spec y (py p1)), (Z.leb_spec (py p1) y); try lia; cbn [andb b2z]; lia. }
    rewrite CY. destruct (Z.lt_total 0 (rdet p0 p1 p2)) as [L|[L|L]]; [| lia |].
    + rewrite (F1 C0 C1 C2 L) in F. destruct F as [-> ->]. specialize (O1 L). rewrite Z.sgn_pos by exact L.
      unfold b2z. destruct (Z.leb_spec (long_e p0 p1 p2 y) x), (Z.ltb_spec x (short_e p0 p1 p2 y)), (Z.ltb_spec x (long_e p0 p1 p2 y)); cbn [andb]; lia.
    + rewrite (F2 C0 C1 C2 L) in F. destruct F as [-> ->]. specialize (O2 L). rewrite Z.sgn_neg by exact L.
      unfold b2z. destruct (Z.leb_spec (short_e p0 p1 p2 y) x), (Z.ltb_spec x (long_e p0 p1 p2 y)), (Z.ltb_spec x (short_e p0 p1 p2 y)); cbn [andb]; lia.
  - rewrite cov1_norow by lia. unfold cyc, sig.
    destruct (Z.ltb_spec y (py p2)), (Z.ltb_spec y (py p1)), (Z.ltb_spec y (py p0)); try lia. rewrite !andb_false_r. cbn [andb b2z Z.opp].
    destruct (py p2 <? py p1), (py p1 <? py p2), (py p1 <? py p0), (py p0 <? py p1), (py p0 <? py p2), (py p2 <? py p0); cbn; lia.
Qed.

Lemma cov1_cyc t x y : in_box 15 t -> tarea t <> 0 -> cov1 t x y = Z.sgn (tarea t) * cyc x y (ta t) (tb t) (tc t).
Proof.
  intros HB HA. destruct (sort_vertices t) as [[p0 p1] p2] eqn:E. destruct (sort_vertices_spec _ _ _ _ E) as [_ P].
  pose proof (tarea_rdet _ _ _ _ E) as D. rewrite (cov1_sorted t x y p0 p1 p2 HB E) by lia. clear E D HB HA.
  pose proof (perm_verts_cases (ta t) (tb t) (tc t) (Tri p0 p1 p2) P) as H. unfold tarea, area2, rdet, cyc.
  set (a := ta t) in *. set (b := tb t) in *. set (c := tc t) in *. clearbody a b c.
  assert (SG : forall u v p q : Z, (u = v /\ p = q) \/ (u = - v /\ p = - q) -> Z.sgn u * p = Z.sgn v * q).
  { intros u v p q [[-> ->]|[-> ->]]; [reflexivity|]. rewrite Z.sgn_opp. ring. }
  apply SG.
  decompose [or] H; match goal with Q : Tri _ _ _ = _ |- _ => injection Q; intros; subst end;
  rewrite ?(sig_antisym x y a b), ?(sig_antisym x y b c), ?(sig_antisym x y c a);
  first [left; split; lia | right; split; lia].
Qed.
