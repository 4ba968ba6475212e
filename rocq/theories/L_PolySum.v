(** The sums a polygon's score is computed from (C66): the fan triangles of a rounded cell
    may be degenerate, and then the rasteriser may call [line] with x1 < x0. *)
From Coq Require Import ZArith Reals List Bool Lia Lra Permutation Psatz.
From Flocq Require Import Core IEEE754.BinarySingleNaN.
From Verif Require Import GoNum FloatLemmas M_Norm S_Norm M_Slice M_Geom S_Geom M_Image S_Image L_Image M_Raster S_Raster L_Raster1 L_Raster2 L_Raster3 L_Raster4 L_Raster5
  M_Render L_Render L_Blocks M_Delaunay M_Algo M_Fitness S_Fitness L_Sums L_Var M_Voronoi M_Polygons L_Span.
Import ListNotations.
Open Scope Z_scope.

Lemma i64_add_l a b : i64 (i64 a + b) = i64 (a + b).
Proof.
  unfold i64, wraps. f_equal. change (2 ^ (64 - 1)) with (2 ^ 63). replace ((a + 2 ^ 63) mod 2 ^ 64 - 2 ^ 63 + b + 2 ^ 63) with ((a + 2 ^ 63) mod 2 ^ 64 + b) by lia.
  rewrite Zplus_mod_idemp_l. f_equal. lia.
Qed.
Lemma i64_add_r a b : i64 (a + i64 b) = i64 (a + b).
Proof. rewrite Z.add_comm, i64_add_l, Z.add_comm. reflexivity. Qed.

(** The lines a block rasterisation reports lie in the rows of the triangle. *)
Lemma dda_blocks_ys fuel t bs ev x0 x1 y : 1 <= bs <= 2 ^ 24 -> in_box 24 t -> dda_blocks fuel t bs = Some ev ->
  In (Line x0 x1 y) ev -> ymin t <= y < ymax t.
Proof.
  intros Hbs HB Ev He.
  set (k := Nat.max fuel (Z.to_nat (2 ^ 56))).
  pose proof (dda_blocks_more fuel k t bs ev (Nat.le_max_l _ _) Ev) as Ek.
  assert (Hk : 2 ^ 56 <= Z.of_nat k) by (unfold k; rewrite Nat2Z.inj_max, Z2Nat.id by lia; lia). clearbody k.
  unfold dda_blocks in Ek. destruct (sort_vertices t) as [[p0 p1] p2] eqn:E.
  destruct (sort_vertices_spec _ _ _ _ E) as [Hs _]. pose proof (in_box_sorted _ _ _ _ _ HB E) as B.
  pose proof (blocks_from k bs p0 p1 p2 Hbs Hk B Hs ev Ek) as F. rewrite Forall_forall in F. specialize (F _ He).
  destruct (ybounds t p0 p1 p2 E) as [-> ->]. cbn [from] in F. apply F.
Qed.

(** Sums modulo 2^64, with the number of pixels replaced. *)
Definition wr (s : sums) : sums := Sums (i64 (s_n s)) (i64 (s_r s)) (i64 (s_g s)) (i64 (s_b s)) (i64 (s_sq s)).
Definition with_n (n : Z) (s : sums) : sums := Sums n (s_r s) (s_g s) (s_b s) (s_sq s).

Section One.
Variables (im : idata) (fi : fimg) (bs : Z) (fuel : nat).
Hypothesis G : good_image im.
Hypothesis Hw : i_w im <= 32767.
Hypothesis Hh : i_h im <= 32767.
Hypothesis Hbs : 1 <= bs <= 16.
Hypothesis Hbw : bs <= i_w im + 1.
Hypothesis Hbh : bs <= i_h im + 1.
Hypothesis E : new_fimg fuel im bs = Some fi.

Lemma fuel_fi : fi_fuel fi = fuel.
Proof. unfold new_fimg in E. destruct (from_image im), (from_imageN im bs); try discriminate. injection E as <-. reflexivity. Qed.

Lemma add_px_wrap row y l : forall s, (forall x, In x l -> znth row x = Some (stored im (x, y))) ->
  foldM (fun s x => match znth row x with None => None | Some p => Some (add_px s p) end) l (wr s) =
    Some (wr (with_n (s_n s) (plus_sums s (pixel_sums im (map (fun x => (x, y)) l))))).
Proof.
  induction l as [|x l IH]; intros s Hl.
  - cbn [foldM map]. destruct s as [n r g b q]. unfold with_n, plus_sums, wr. cbn [s_n s_r s_g s_b s_sq pixel_sums sum_over fold_right]. rewrite !Z.add_0_r. reflexivity.
  - cbn [foldM map]. rewrite (Hl x (or_introl eq_refl)).
    replace (add_px (wr s) (stored im (x, y))) with (wr (with_n (s_n s) (plus_sums s (pixel_sums im [(x, y)])))).
    + rewrite IH by (intros z Hz; apply Hl; right; exact Hz). f_equal. unfold with_n, plus_sums, wr. cbn [s_n s_r s_g s_b s_sq pixel_sums sum_over fold_right].
      f_equal; f_equal; rewrite Z.add_0_r; symmetry; apply Z.add_assoc.
    + unfold add_px, with_n, plus_sums, wr. cbn [s_n s_r s_g s_b s_sq pixel_sums sum_over fold_right]. rewrite !Z.add_0_r, !i64_add_l. reflexivity.
Qed.

Lemma on_event_wrap e s : (match e with Line _ _ y => 0 <= y < i_h im | Block _ _ => True end) -> Forall (inside im) (event_pixels bs e) ->
  on_event fi (wr s) e = Some (wr (with_n (s_n s + counted bs e) (plus_sums s (pixel_sums im (event_pixels bs e))))).
Proof.
  intros He F2. destruct (fimg_rows im fi bs fuel G Hbs Hbw Hbh E) as (Eb & HR & HB).
  destruct e as [x0 x1 y|x y]; cbn [on_event counted].
  - destruct (HR y He) as (row & -> & Lr & Pr). cbn [event_pixels] in *.
    destruct (Z_le_gt_dec x1 x0) as [Nx|Nx].
    { rewrite zfor_nil by lia. cbn [foldM map].
      replace (if (0 <=? x0) && (x1 <=? Z.of_nat (length row)) then Some (wr s) else Some (wr s)) with (Some (wr s)) by (destruct (_ && _); reflexivity).
      destruct s as [n r g b q]. unfold add_n, plus_sums, with_n, wr. cbn [pixel_sums s_n s_r s_g s_b s_sq sum_over fold_right length Z.of_nat].
      rewrite !Z.add_0_r, i64_add_l, i64_add_r. reflexivity. }
    assert (In0 : inside im (x0, y)). { rewrite Forall_forall in F2. apply F2. apply (in_map (fun x => (x, y))), zfor_In. lia. }
    assert (In1 : inside im (x1 - 1, y)). { rewrite Forall_forall in F2. apply F2. apply (in_map (fun x => (x, y))), zfor_In. lia. }
    unfold inside in In0, In1. cbn [fst snd] in In0, In1.
    destruct (Z.leb_spec 0 x0); [|lia]. destruct (Z.leb_spec x1 (Z.of_nat (length row))); [|lia]. cbn [andb].
    rewrite (add_px_wrap row y (zfor x0 x1)) by (intros x Hx'; apply zfor_In in Hx'; apply Pr; lia).
    f_equal. unfold add_n, with_n, plus_sums, wr. cbn [s_n s_r s_g s_b s_sq]. rewrite i64_add_l, i64_add_r. reflexivity.
  - assert (In0 : inside im (x, y)). { rewrite Forall_forall in F2. apply F2. cbn [event_pixels]. apply in_flat_map. exists y. split; [apply zfor_In; lia|].
      apply (in_map (fun a => (a, y))), zfor_In. lia. }
    assert (In1 : inside im (x + bs - 1, y + bs - 1)). { rewrite Forall_forall in F2. apply F2. cbn [event_pixels]. apply in_flat_map. exists (y + bs - 1). split; [apply zfor_In; lia|].
      apply (in_map (fun a => (a, y + bs - 1))), zfor_In. lia. }
    unfold inside in In0, In1. cbn [fst snd] in In0, In1.
    destruct (HB x y ltac:(lia) ltac:(lia)) as (row & -> & Q). cbv zeta in Q. rewrite Q, Eb.
    f_equal. unfold add_n, add_px, with_n, plus_sums, wr. cbn [s_n s_r s_g s_b s_sq p_r p_g p_b p_sq]. rewrite !i64_add_l, i64_add_r. reflexivity.
Qed.

Lemma events_wrap ev : forall s, (forall x0 x1 y, In (Line x0 x1 y) ev -> 0 <= y < i_h im) -> Forall (inside im) (flat_map (event_pixels bs) ev) ->
  foldM (on_event fi) ev (wr s) = Some (wr (with_n (s_n s + count bs ev) (plus_sums s (pixel_sums im (flat_map (event_pixels bs) ev))))).
Proof.
  induction ev as [|e ev IH]; intros s Hl F; cbn [foldM flat_map].
  - destruct s as [n r g b q]. unfold with_n, plus_sums, wr, count. cbn [s_n s_r s_g s_b s_sq pixel_sums sum_over fold_right map]. rewrite !Z.add_0_r. reflexivity.
  - cbn [flat_map] in F. apply Forall_app in F as [F1 F2]. rewrite on_event_wrap; [|destruct e as [x0 x1 y|]; [|exact I]; apply (Hl x0 x1 y); left; reflexivity|exact F1].
    rewrite IH; [|intros x0 x1 y H; apply (Hl x0 x1 y); right; exact H|exact F2]. f_equal. rewrite pixel_sums_app. change (e :: ev) with ([e] ++ ev). rewrite count_app.
    replace (count bs [e]) with (counted bs e) by (unfold count; cbn [map fold_right]; lia).
    unfold with_n, plus_sums, wr. cbn [s_n s_r s_g s_b s_sq]. f_equal; f_equal; lia.
Qed.

(** The number of pixels that the score of a polygon is computed with. *)
Definition span (poly : list point) : Z := count 1 (flat_map dda_lines (polygon_triangulate poly)).

Lemma lines_only t e : In e (dda_lines t) -> exists a b c, e = Line a b c.
Proof. apply dda_lines_only. Qed.

Lemma concat_events_spec fu l ev : (forall t, In t l -> in_box 24 t) -> concat_events (map (fun t => dda_blocks fu t bs) l) = Some ev ->
  count bs ev = count bs (flat_map dda_lines l) /\ forall x0 x1 y, In (Line x0 x1 y) ev -> exists t, In t l /\ ymin t <= y < ymax t.
Proof.
  revert ev. induction l as [|t l IH]; intros ev HT; cbn [map concat_events].
  - intros [= <-]. split; [reflexivity|]. intros ? ? ? [].
  - destruct (dda_blocks fu t bs) as [e|] eqn:Ee; [|discriminate]. destruct (concat_events _) as [r|] eqn:Er; [|discriminate]. cbn [option_map]. intros [= <-].
    destruct (IH r) as [C Y]; [intros u Hu; apply HT; right; exact Hu|reflexivity|]. split.
    + cbn [flat_map]. rewrite !count_app, C, (dda_blocks_count fu t bs e); [reflexivity|lia|apply HT; left; reflexivity|exact Ee].
    + intros x0 x1 y I. apply in_app_or in I as [I|I].
      * exists t. split; [left; reflexivity|]. eapply dda_blocks_ys; [|apply HT; left; reflexivity|exact Ee|exact I]. lia.
      * destruct (Y x0 x1 y I) as (u & Hu & Q). exists u. split; [right; exact Hu|exact Q].
Qed.
Lemma concat_events_some fu l : (forall t, In t l -> dda_blocks fu t bs <> None) -> concat_events (map (fun t => dda_blocks fu t bs) l) <> None.
Proof.
  induction l as [|t l IH]; intros H; [discriminate|]. cbn [map concat_events]. pose proof (H t (or_introl eq_refl)). destruct (dda_blocks fu t bs); [|congruence].
  destruct (concat_events _); [discriminate|]. exfalso. apply IH; [intros u Hu; apply H; right; exact Hu|reflexivity].
Qed.

Variable poly : list point.
Hypothesis HP : forall p, In p poly -> 0 <= px p <= i_w im /\ 0 <= py p <= i_h im.

Lemma fan_inside t : In t (polygon_triangulate poly) -> Forall (vertex_inside im) (verts t).
Proof. intros I. apply Forall_forall. intros p Hp. apply HP. eapply fan_verts; eauto. Qed.
Lemma fan_box k t : 15 <= k -> In t (polygon_triangulate poly) -> in_box k t.
Proof.
  intros Hk I p Hp. assert (2 ^ 15 <= 2 ^ k) by (apply Z.pow_le_mono_r; lia). change (2 ^ 15) with 32768 in *. destruct (HP p) as [A B]; [eapply fan_verts; eauto|]. lia.
Qed.
Lemma polygon_inside : Forall (inside im) (dda_polygon poly).
Proof.
  apply Forall_forall. intros p I. unfold dda_polygon in I. apply in_flat_map in I as (t & It & I).
  pose proof (tri_pixels_inside im t ltac:(lia) ltac:(lia) (fan_inside t It)) as F. rewrite Forall_forall in F. apply F, I.
Qed.

Lemma poly_diff_wrap : (forall v, poly_diff fi poly = Some v -> v = diff_of (wr (with_n (span poly) (pixel_sums im (dda_polygon poly))))) /\
  (2 ^ 56 <= Z.of_nat fuel -> poly_diff fi poly <> None).
Proof.
  unfold poly_diff. destruct (fimg_rows im fi bs fuel G Hbs Hbw Hbh E) as (Eb & _). rewrite Eb, fuel_fi.
  assert (HB : poly_box 24 poly). { intros q I. destruct (HP q I). lia. }
  destruct (dda_polygon_blocks_spec poly bs ltac:(lia) HB) as [_ PS].
  assert (K : forall ev, dda_polygon_blocks fuel poly bs = Some ev -> foldM (on_event fi) ev sums0 = Some (wr (with_n (span poly) (pixel_sums im (dda_polygon poly))))).
  { intros ev Ev. specialize (PS fuel ev Ev). unfold dda_polygon_blocks in Ev.
    destruct (concat_events_spec fuel _ ev (fun t => fan_box 24 t ltac:(lia)) Ev) as [C Y].
    change sums0 with (wr sums0). rewrite events_wrap.
    - f_equal. rewrite (pixel_sums_perm im _ _ PS), C. unfold span.
      rewrite (count_lines bs 1) by (intros e I; apply in_flat_map in I as (t & _ & I); apply (lines_only t e I)).
      unfold with_n, plus_sums, wr. cbn [s_n s_r s_g s_b s_sq sums0]. reflexivity.
    - intros x0 x1 y I. destruct (Y x0 x1 y I) as (t & It & Q). pose proof (fan_inside t It) as F. unfold ymin, ymax in Q. rewrite Forall_forall in F.
      pose proof (F (ta t) ltac:(cbn; auto)). pose proof (F (tb t) ltac:(cbn; auto)). pose proof (F (tc t) ltac:(cbn; auto)). unfold vertex_inside in *. lia.
    - apply (Permutation_Forall (Permutation_sym PS)), polygon_inside. }
  split.
  - destruct (dda_polygon_blocks fuel poly bs) as [ev|]; [|discriminate]. rewrite (K ev eq_refl). intros v [= <-]. reflexivity.
  - intros Hf. destruct (dda_polygon_blocks fuel poly bs) as [ev|] eqn:Ev; [rewrite (K ev eq_refl); discriminate|]. exfalso. revert Ev. apply concat_events_some.
    intros t It. destruct (dda_blocks_total fuel t bs ltac:(lia) (fan_box 24 t ltac:(lia) It) Hf) as (ev & -> & _). discriminate.
Qed.

(** With at most 2^15 vertices the sums do not overflow. *)
Lemma count_bound l B : (forall e, In e l -> Z.abs (counted 1 e) <= B) -> Z.abs (count 1 l) <= B * Z.of_nat (length l).
Proof.
  intros H. induction l as [|e l IH]; [cbn; lia|]. change (e :: l) with ([e] ++ l). rewrite count_app, app_length. cbn [length app]. rewrite Nat2Z.inj_add. cbn [Z.of_nat].
  replace (count 1 [e]) with (counted 1 e) by (unfold count; cbn [map fold_right]; lia). pose proof (H e (or_introl eq_refl)).
  assert (Z.abs (count 1 l) <= B * Z.of_nat (length l)) by (apply IH; intros e' I; apply H; right; exact I). lia.
Qed.
Lemma tri_span t : In t (polygon_triangulate poly) -> Z.abs (count 1 (dda_lines t)) <= 2 ^ 30.
Proof.
  intros It. pose proof (fan_inside t It) as F. rewrite Forall_forall in F.
  pose proof (F (ta t) ltac:(cbn; auto)) as A. pose proof (F (tb t) ltac:(cbn; auto)) as B. pose proof (F (tc t) ltac:(cbn; auto)) as C. unfold vertex_inside in *.
  assert (X : Z.abs (count 1 (dda_lines t)) <= 32767 * Z.of_nat (length (dda_lines t))).
  { apply count_bound. intros e I. destruct (lines_only t e I) as (a & b & c & ->). cbn [counted].
    destruct (lines_in_box t a b c (fan_box 24 t ltac:(lia) It) I) as (_ & Q1 & Q2). unfold xmin, xmax in *. lia. }
  destruct (dda_lines_shape t) as (L & R & Q). rewrite Q, map_length, zfor_length in X. rewrite Q. unfold ymin, ymax in *. lia.
Qed.
Lemma fan_length : (length (polygon_triangulate poly) <= length poly)%nat.
Proof.
  clear. destruct poly as [|a [|b r]]; cbn [polygon_triangulate length]; try lia. enough (forall l p q, length (fan_from p q l) = length l) as -> by lia.
  induction l as [|c l IH]; intros p q; cbn [fan_from length]; [reflexivity|]. rewrite IH. reflexivity.
Qed.
Lemma span_bound : Z.of_nat (length poly) <= 2 ^ 15 -> Z.abs (span poly) <= 2 ^ 45.
Proof.
  intros Hl. pose proof fan_length as L. unfold span. pose proof tri_span as T. revert L T. generalize (polygon_triangulate poly) as l.
  intros l L T. assert (Z.abs (count 1 (flat_map dda_lines l)) <= 2 ^ 30 * Z.of_nat (length l)); [|lia]. clear L.
  induction l as [|t l IH]; [cbn; lia|]. cbn [flat_map length]. rewrite count_app, Nat2Z.inj_succ. pose proof (T t (or_introl eq_refl)).
  assert (Z.abs (count 1 (flat_map dda_lines l)) <= 2 ^ 30 * Z.of_nat (length l)) by (apply IH; intros u Hu; apply T; right; exact Hu). lia.
Qed.
Lemma pixels_bound : Z.of_nat (length poly) <= 2 ^ 15 -> Z.of_nat (length (dda_polygon poly)) <= 2 ^ 45.
Proof.
  intros Hl. pose proof fan_length as L. unfold dda_polygon. pose proof fan_inside as T. revert L T. generalize (polygon_triangulate poly) as l.
  intros l L T. assert (Z.of_nat (length (flat_map dda_pixels l)) <= 2 ^ 30 * Z.of_nat (length l)); [|lia]. clear L.
  induction l as [|t l IH]; [cbn; lia|]. cbn [flat_map length]. rewrite app_length, Nat2Z.inj_add, Nat2Z.inj_succ.
  destruct G as (g1 & g2 & _). pose proof (tri_pixels_count im t ltac:(lia) ltac:(lia) g1 g2 (T t (or_introl eq_refl))).
  assert (Z.of_nat (length (flat_map dda_pixels l)) <= 2 ^ 30 * Z.of_nat (length l)) by (apply IH; intros u Hu; apply T; right; exact Hu). nia.
Qed.
Lemma wr_small : Z.of_nat (length poly) <= 2 ^ 15 -> wr (with_n (span poly) (pixel_sums im (dda_polygon poly))) = with_n (span poly) (pixel_sums im (dda_polygon poly)).
Proof.
  intros Hl. pose proof (span_bound Hl). pose proof (pixels_bound Hl) as P. pose proof (pixel_sums_bound im _ G polygon_inside) as B. cbv zeta in B. destruct B as (B0 & B1 & B2 & B3 & B4).
  unfold wr, with_n. cbn [s_n s_r s_g s_b s_sq]. rewrite !i64_small; [reflexivity|lia..].
Qed.

Lemma poly_diff_exact : Z.of_nat (length poly) <= 2 ^ 15 ->
  (forall v, poly_diff fi poly = Some v -> v = diff_of (with_n (span poly) (pixel_sums im (dda_polygon poly)))) /\
  (2 ^ 56 <= Z.of_nat fuel -> poly_diff fi poly = Some (diff_of (with_n (span poly) (pixel_sums im (dda_polygon poly))))).
Proof.
  intros Hl. destruct poly_diff_wrap as [A B]. rewrite wr_small in A by exact Hl. split; [exact A|]. intros Hf. specialize (B Hf).
  destruct (poly_diff fi poly) as [v|]; [|congruence]. rewrite (A v eq_refl). reflexivity.
Qed.
End One.

(** Without degenerate fan triangles the number is that of the pixels. *)
Lemma count_pixels l : (forall e, In e l -> exists a b c, e = Line a b c /\ a <= b) -> count 1 l = Z.of_nat (length (flat_map (event_pixels 1) l)).
Proof.
  induction l as [|e l IH]; intros H; [reflexivity|]. cbn [flat_map]. rewrite app_length, Nat2Z.inj_add, <- IH by (intros e' I; apply H; right; exact I).
  change (e :: l) with ([e] ++ l). rewrite count_app. f_equal. destruct (H e (or_introl eq_refl)) as (a & b & c & -> & Hab).
  unfold count. cbn [map fold_right counted event_pixels]. rewrite map_length, zfor_length. lia.
Qed.
Lemma span_exact poly : (forall p, In p poly -> Z.abs (px p) <= 2 ^ 15 /\ Z.abs (py p) <= 2 ^ 15) ->
  (forall t, In t (polygon_triangulate poly) -> tarea t <> 0) -> span poly = Z.of_nat (length (dda_polygon poly)).
Proof.
  intros HP HA. unfold span, dda_polygon.
  assert (HB : forall t, In t (polygon_triangulate poly) -> in_box 15 t) by (intros t I p Hp; apply HP; eapply fan_verts; eauto).
  revert HA HB. generalize (polygon_triangulate poly) as l. induction l as [|t l IH]; intros HA HB; [reflexivity|].
  cbn [flat_map]. rewrite count_app, app_length, Nat2Z.inj_add, <- IH; [|intros u Hu; apply HA; right; exact Hu|intros u Hu; apply HB; right; exact Hu]. f_equal.
  rewrite (dda_pixels_events t 1). apply count_pixels. intros e I. destruct (dda_lines_only t e I) as (a & b & c & ->). exists a, b, c. split; [reflexivity|].
  eapply lines_ordered; [apply HB; left; reflexivity|apply HA; left; reflexivity|exact I].
Qed.

(** The score is always a finite number. *)
Lemma poly_diff_finite im poly v : poly_diff im poly = Some v -> is_finite v = true /\ (Rabs (R64 v) <= bpow radix2 65)%R.
Proof.
  unfold poly_diff. destruct (dda_polygon_blocks _ _ _) as [ev|]; [|discriminate]. destruct (foldM (on_event im) ev sums0) as [s|] eqn:E; [|discriminate].
  intros [= <-]. apply diff_finite.
  enough (K : forall ev s s', i64_sums s -> foldM (on_event im) ev s = Some s' -> i64_sums s') by (apply (K ev sums0 s); [split; cbn; lia|exact E]).
  clear. induction ev as [|e ev IH]; intros s s' H; cbn [foldM]; [intros [= <-]; exact H|].
  destruct (on_event im s e) as [s1|] eqn:E; [|discriminate]. apply IH, (on_event_i64 im s e s1 H E).
Qed.
