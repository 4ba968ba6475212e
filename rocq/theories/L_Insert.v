(** Insert refines the insertion of a point into a Delaunay tiling. *)
From Coq Require Import ZArith Reals List Bool Lia Lra Permutation.
From Flocq Require Import Core IEEE754.BinarySingleNaN.
From Verif Require Import GoNum FloatLemmas M_Norm M_Slice M_Geom S_Geom M_Image M_Raster S_Raster M_Delaunay S_Delaunay
  L_Raster1 L_Raster6 L_PMap L_GMap L_Super L_Slots L_Slots2 L_Plane L_BW L_Toggle L_Count.
Import ListNotations.
Open Scope Z_scope.

(* ---------------------------------------------------------------- *)
(** * Arithmetic without overflow *)
Lemma i64_id z : Z.abs z < 2 ^ 63 -> i64 z = z.
Proof. unfold i64, wraps. intros H. change (2 ^ (64 - 1)) with (2 ^ 63). change (2 ^ 64) with (2 * 2 ^ 63). rewrite Z.mod_small; lia. Qed.
Lemma mul_bound a b A B : Z.abs a <= A -> Z.abs b <= B -> Z.abs (a * b) <= A * B.
Proof. intros. rewrite Z.abs_mul. apply Z.mul_le_mono_nonneg; lia. Qed.

(** Sizes for which no arithmetic of the package overflows. *)
Definition size_ok (w h : Z) : Prop := 1 <= w <= 8191 /\ 1 <= h <= 8191 /\ 2 <= Z.max w h.

(** The enclosing triangle, counter-clockwise. *)
Definition sup (w h : Z) : tri := Tri (sA w h) (sC w h) (sB w h).
Definition okv (w h : Z) (v : point) : Prop := In v (verts (sup w h)) \/ in_image w h v.

Lemma half_bounds w : 1 <= w -> 1 <= (w + 1) / 2 <= w /\ w <= 2 * ((w + 1) / 2) <= w + 1.
Proof. intros H. assert (A1 := Z.div_mod (w + 1) 2 ltac:(lia)). assert (A2 := Z.mod_pos_bound (w + 1) 2 ltac:(lia)). lia. Qed.

Ltac okv_cases H := destruct H as [[H|[H|[H|[]]]]|H]; [subst; unfold sup, sA, sB, sC; cbn [ta tb tc px py].. | unfold in_image in H].
Lemma okv_range w h v : size_ok w h -> okv w h v ->
  let m := Z.max w h in let x := (w + 1) / 2 in let y := (h + 1) / 2 in
  x - 2 * m <= px v <= x + 2 * m /\ y - m <= py v <= y + 2 * m.
Proof.
  intros (Hw & Hh & Hm) H m x y. pose proof (half_bounds w ltac:(lia)). pose proof (half_bounds h ltac:(lia)). subst m x y.
  set (x := (w + 1) / 2) in *. set (y := (h + 1) / 2) in *.
  destruct H as [[<-|[<-|[<-|[]]]]|H]; unfold sup, sA, sB, sC; cbn [ta tb tc px py]; fold x y; try lia. unfold in_image in H. lia.
Qed.
Lemma okv_diff w h u v : size_ok w h -> okv w h u -> okv w h v ->
  Z.abs (px u - px v) <= 32764 /\ Z.abs (py u - py v) <= 32764.
Proof.
  intros S U V. pose proof (okv_range _ _ _ S U) as A. pose proof (okv_range _ _ _ S V) as B. destruct S as (Hw & Hh & Hm). cbv zeta in *. lia.
Qed.
Lemma okv_diff_p w h u p : size_ok w h -> okv w h u -> in_image w h p ->
  Z.abs (px u - px p) <= 20480 /\ Z.abs (py u - py p) <= 20480.
Proof.
  intros S U P. pose proof (okv_range _ _ _ S U) as A. destruct S as (Hw & Hh & Hm). cbv zeta in *. unfold in_image in P.
  pose proof (half_bounds w ltac:(lia)). pose proof (half_bounds h ltac:(lia)). lia.
Qed.
Lemma okv_coord w h u : size_ok w h -> okv w h u -> Z.abs (px u) <= 20479 /\ Z.abs (py u) <= 20479.
Proof.
  intros S U. pose proof (okv_range _ _ _ S U) as A. destruct S as (Hw & Hh & Hm). cbv zeta in *.
  pose proof (half_bounds w ltac:(lia)). pose proof (half_bounds h ltac:(lia)). lia.
Qed.

Definition corners_ok (w h : Z) (t : dtri) : Prop := okv w h (d_a t) /\ okv w h (d_b t) /\ okv w h (d_c t).

Lemma orientation_exact w h a b c : size_ok w h -> okv w h a -> okv w h b -> okv w h c ->
  orientation (px a) (py a) (px b) (py b) (px c) (py c) = orient a b c.
Proof.
  intros S A B C. unfold orientation. rewrite i64_id; [unfold orient; ring|].
  pose proof (okv_diff _ _ _ _ S A C) as [X1 Y1]. pose proof (okv_diff _ _ _ _ S B C) as [X2 Y2].
  pose proof (mul_bound _ _ _ _ X1 Y2). pose proof (mul_bound _ _ _ _ X2 Y1). change (2 ^ 63) with 9223372036854775808. lia.
Qed.

Lemma incirc_small w h a b c p : size_ok w h -> okv w h a -> okv w h b -> okv w h c -> in_image w h p -> Z.abs (incirc a b c p) < 2 ^ 63.
Proof.
  intros S A B C P.
  pose proof (okv_diff_p _ _ _ _ S A P) as [X1 Y1]. pose proof (okv_diff_p _ _ _ _ S B P) as [X2 Y2]. pose proof (okv_diff_p _ _ _ _ S C P) as [X3 Y3].
  unfold incirc. set (ax := px a - px p) in *. set (ay := py a - py p) in *. set (bx := px b - px p) in *. set (by_ := py b - py p) in *.
  set (cx := px c - px p) in *. set (cy := py c - py p) in *. clearbody ax ay bx by_ cx cy.
  assert (Q : forall u v s t q r, Z.abs u <= 20480 -> Z.abs v <= 20480 -> Z.abs s <= 20480 -> Z.abs t <= 20480 -> Z.abs q <= 20480 -> Z.abs r <= 20480 ->
     Z.abs ((u * u + v * v) * (s * t - q * r)) <= (2 * 20480 * 20480) * (2 * 20480 * 20480)).
  { intros u v s t q r U V S0 T0 Q0 R0. apply mul_bound.
    - pose proof (mul_bound _ _ _ _ U U). pose proof (mul_bound _ _ _ _ V V). lia.
    - pose proof (mul_bound _ _ _ _ S0 T0). pose proof (mul_bound _ _ _ _ Q0 R0). lia. }
  pose proof (Q _ _ _ _ _ _ X1 Y1 X2 Y3 X3 Y2). pose proof (Q _ _ _ _ _ _ X2 Y2 X3 Y1 X1 Y3). pose proof (Q _ _ _ _ _ _ X3 Y3 X1 Y2 X2 Y1).
  change (2 ^ 63) with 9223372036854775808. lia.
Qed.

(** The test of Insert is exact. *)
Lemma contains_exact w h t p : size_ok w h -> corners_ok w h t -> in_image w h p ->
  contains_point t p = (0 <=? tinc (ccw t) p).
Proof.
  intros S (A & B & C) P. unfold contains_point, in_circle. rewrite (orientation_exact w h) by assumption.
  unfold ccw. destruct (orient (d_a t) (d_b t) (d_c t) <? 0); unfold tinc; cbn [ta tb tc].
  - pose proof (incirc_small w h _ _ _ _ S B A C P) as Q. unfold incirc in *. rewrite i64_id by exact Q. rewrite Z.geb_leb. reflexivity.
  - pose proof (incirc_small w h _ _ _ _ S A B C P) as Q. unfold incirc in *. rewrite i64_id by exact Q. rewrite Z.geb_leb. reflexivity.
Qed.

(** The test that skips degenerate triangles is exact. *)
Lemma connect_exact w h p e tris g free : size_ok w h -> okv w h (fst e) -> okv w h (snd e) -> in_image w h p ->
  connect p (tris, g, free) e = if orient (fst e) (snd e) p =? 0 then Some (tris, g, free) else add_triangle tris g free (new_triangle (fst e) (snd e) p).
Proof.
  intros S A B P. unfold connect.
  pose proof (okv_diff _ _ _ _ S B A) as [X1 Y1]. pose proof (okv_diff_p _ _ _ _ S B P) as [X2 Y2].
  rewrite !i16_id by (unfold int16_range; lia).
  assert (E : (px (snd e) - px (fst e)) * (py p - py (snd e)) - (py (snd e) - py (fst e)) * (px p - px (snd e)) = orient (fst e) (snd e) p) by (unfold orient; ring).
  rewrite E. rewrite i64_id; [reflexivity|]. rewrite <- E.
  assert (X2' : Z.abs (px p - px (snd e)) <= 20480) by lia. assert (Y2' : Z.abs (py p - py (snd e)) <= 20480) by lia.
  pose proof (mul_bound _ _ _ _ X1 Y2'). pose proof (mul_bound _ _ _ _ Y1 X2'). change (2 ^ 63) with 9223372036854775808. lia.
Qed.

Lemma okv_not_freed w h v : size_ok w h -> okv w h v -> px v <> -1.
Proof.
  intros (Hw & Hh & Hm) H. pose proof (half_bounds w ltac:(lia)).
  destruct H as [[<-|[<-|[<-|[]]]]|H]; unfold sup, sA, sB, sC; cbn [ta tb tc px]; try lia. unfold in_image in H. lia.
Qed.

(* ---------------------------------------------------------------- *)
(** * The cell of a point *)
Lemma cell_coord x w : 1 <= w <= 8191 -> 0 <= x <= w ->
  0 <= go_int (ffloor (fdiv (f64_of_Z x) (fdiv (f64_of_Z w) (f64_of_Z 10)))) <= 10.
Proof.
  intros Hw Hx.
  assert (E10 : R64 (f64_of_Z 10) = 10%R) by (apply (of_Z_val 10); lia).
  assert (Ew : R64 (f64_of_Z w) = IZR w) by (apply of_Z_val; lia).
  assert (Ex : R64 (f64_of_Z x) = IZR x) by (apply of_Z_val; lia).
  assert (Bw : (1 <= IZR w <= 8191)%R) by (split; apply IZR_le; lia).
  assert (Bx : (0 <= IZR x <= IZR w)%R) by (split; apply IZR_le; lia).
  assert (BIG : (8191 * 16 <= bpow radix2 1023)%R).
  { rewrite bpow_IZR by lia. rewrite <- mult_IZR. apply IZR_le. vm_compute. discriminate. }
  assert (X : (fin (fdiv (f64_of_Z w) (f64_of_Z 10)) /\ IZR w / 10 * (1 - / 1024) <= R64 (fdiv (f64_of_Z w) (f64_of_Z 10)))%R).
  { destruct (fdiv_R (f64_of_Z w) (f64_of_Z 10)) as [F E]; [apply of_Z_fin; lia|apply of_Z_fin; lia|rewrite E10; lra| |].
    - rewrite Ew, E10, Rabs_pos_eq; lra.
    - split; [exact F|]. rewrite E, Ew, E10. pose proof (rnd_rel (IZR w / 10)) as Q.
      rewrite (Rabs_pos_eq (IZR w / 10)) in Q by lra. apply Rabs_le_inv in Q.
      assert (b1 : (bpow radix2 (-53) <= / 4096)%R) by (apply Rle_trans with (bpow radix2 (-12)); [apply bpow_le; lia|cbn; lra]).
      assert (b2 : (bpow radix2 (-1075) <= / 131072)%R) by (apply Rle_trans with (bpow radix2 (-17)); [apply bpow_le; lia|cbn; lra]).
      assert (bpow radix2 (-53) * (IZR w / 10) <= / 4096 * (IZR w / 10))%R by (apply Rmult_le_compat_r; lra). lra. }
  destruct X as [Fc Bc]. set (c := fdiv (f64_of_Z w) (f64_of_Z 10)) in *.
  assert (Pc : (0 < R64 c)%R) by lra.
  assert (Q : (0 <= IZR x / R64 c <= 10.5)%R).
  { split; [apply Rmult_le_pos; [lra|left; apply Rinv_0_lt_compat; exact Pc]|].
    apply Rmult_le_reg_r with (R64 c); [exact Pc|]. unfold Rdiv. rewrite Rmult_assoc, Rinv_l by lra. lra. }
  destruct (fdiv_R (f64_of_Z x) c) as [F E]; [apply of_Z_fin; lia|exact Fc|lra| |].
  { rewrite Ex, Rabs_pos_eq; lra. }
  rewrite Ex in E. assert (Q2 : (0 <= R64 (fdiv (f64_of_Z x) c) <= 10.5)%R).
  { rewrite E. split; [rewrite <- rnd_0; apply rnd_le; lra|].
    replace 10.5%R with (rnd (IZR 21 * bpow radix2 (-1))) by (rewrite rnd_dy by lia; cbn; lra). apply rnd_le. cbn. lra. }
  destruct (ffloor_R _ F) as [F2 E2].
  assert (Z0 : 0 <= Zfloor (R64 (fdiv (f64_of_Z x) c)) <= 10).
  { split.
    - apply Zfloor_lub. simpl. lra.
    - apply Zlt_succ_le. apply lt_IZR. apply Rle_lt_trans with (R64 (fdiv (f64_of_Z x) c)); [apply Zfloor_lb|]. simpl. lra. }
  rewrite (go_int_small _ 10); [|exact F2| |lia].
  - rewrite E2, Ztrunc_IZR. exact Z0.
  - rewrite E2, Rabs_pos_eq by (apply IZR_le; lia). apply IZR_le. lia.
Qed.

Definition geo_ok (w h : Z) (g : grid) : Prop :=
  g_cols g = 10 /\ g_rows g = 10 /\ g_rowpx g = fdiv (f64_of_Z h) (f64_of_Z 10) /\ g_colpx g = fdiv (f64_of_Z w) (f64_of_Z 10).

Lemma geo_same w h g g' : geo_ok w h g -> same_geo g g' -> geo_ok w h g'.
Proof. intros (A & B & C & D) (A' & B' & C' & D'). unfold geo_ok. rewrite A', B', C', D'. auto. Qed.

Lemma point_cell_range w h g p : size_ok w h -> geo_ok w h g -> in_image w h p ->
  0 <= fst (point_cell g p) < 10 /\ 0 <= snd (point_cell g p) < 10.
Proof.
  intros (Hw & Hh & _) (A & B & C & D) (Hx & Hy). unfold point_cell. rewrite A, B, C, D. cbn [fst snd].
  pose proof (cell_coord (px p) w Hw Hx). pose proof (cell_coord (py p) h Hh Hy).
  set (u := go_int _) in *. set (v := go_int (ffloor (fdiv (f64_of_Z (py p)) _))) in *. clearbody u v.
  destruct (Z.eqb_spec u 10), (Z.eqb_spec v 10); lia.
Qed.

(* ---------------------------------------------------------------- *)
(** * States *)
Record dstate_ok (w h : Z) (P : list point) (d : delaunay) : Prop := {
  ds_slots : slots_ok 10 (d_tris d) (d_grid d) (d_free d);
  ds_geo : geo_ok w h (d_grid d);
  ds_del : delaunay_tiling (sup w h) P (map ccw (live (d_tris d)));
  ds_in : forall q, In q P -> in_image w h q;
  ds_own : forall t, In t (live (d_tris d)) -> d_circ t = calc_circumcircle (d_a t) (d_b t) (d_c t);
  ds_pm : pm_ok (d_pmap d) P;
  ds_num : d_num d = Z.of_nat (length P);
  ds_unique : d_unique d = Z.of_nat (length (nodup point_eq_dec P));
  ds_super : d_super d = new_super_triangle w h }.

(** The grid lookup for p finds every live triangle whose closed circumcircle contains p. *)
Definition lookup_complete (d : delaunay) (p : point) : Prop :=
  forall t, In t (live (d_tris d)) -> 0 <= tinc (ccw t) p -> In (point_cell (d_grid d) p) (box_cells (d_grid d) (d_circ t)).

Lemma ccw_verts t v : In v (verts (ccw t)) <-> v = d_a t \/ v = d_b t \/ v = d_c t.
Proof. unfold ccw. destruct (_ <? 0); unfold verts; cbn [ta tb tc In]; split; intros H; repeat destruct H as [H|H]; subst; auto; contradiction. Qed.

Lemma sup_pos w h : size_ok w h -> pos (sup w h).
Proof.
  intros (Hw & Hh & Hm). unfold pos, sup, orient, sA, sB, sC. cbn [ta tb tc px py].
  set (x := (w + 1) / 2). set (y := (h + 1) / 2). set (m := Z.max w h) in *.
  replace (_ - _) with (12 * (m * m)) by ring. nia.
Qed.
Lemma sup_inner w h p : size_ok w h -> in_image w h p -> inner (sup w h) p.
Proof.
  intros (Hw & Hh & Hm) P. destruct (super_contains w h p ltac:(lia) ltac:(lia) Hm P) as (A & B & C).
  unfold inner, inside. cbn [sup ta tb tc]. rewrite !oloc_at. lia.
Qed.
Lemma in_image_hashable w h p : size_ok w h -> in_image w h p -> hashable p.
Proof.
  intros (Hw & Hh & _) (Hx & Hy). unfold hashable, point16, int16_range, point_hash. change (2 ^ 15) with 32768. lia.
Qed.

Lemma okv_list w h P v : (forall q, In q P -> in_image w h q) -> In v (verts (sup w h) ++ P) -> okv w h v.
Proof. intros H I. apply in_app_or in I. destruct I; [left|right]; auto. Qed.

Lemma ds_corners w h P d t : dstate_ok w h P d -> In t (live (d_tris d)) -> corners_ok w h t.
Proof.
  intros O I. assert (G : forall v, In v (verts (ccw t)) -> okv w h v).
  { intros v Iv. eapply okv_list; [apply O|]. eapply (dt_verts _ _ _ (ds_del _ _ _ _ O)); [|exact Iv]. apply in_map. exact I. }
  repeat split; apply G, ccw_verts; auto.
Qed.

(** Live triangles at most twice the distinct points plus six. *)
Definition distinct (P : list point) : Z := Z.of_nat (length (nodup point_eq_dec P)).
Lemma delaunay_count w h P T : delaunay_tiling (sup w h) P T -> Z.of_nat (length T) <= 2 * (distinct P + 3).
Proof.
  intros H. set (V := nodup point_eq_dec (verts (sup w h) ++ P)).
  assert (C := tiling_count _ _ V (dt_tiling _ _ _ H) (NoDup_nodup _ _)). etransitivity.
  - apply C. intros t v I J. apply nodup_In. eapply dt_verts; eauto.
  - enough (Z.of_nat (length V) <= distinct P + 3) by lia. unfold V, distinct.
    assert (G : forall l, Z.of_nat (length (nodup point_eq_dec (l ++ P))) <= Z.of_nat (length (nodup point_eq_dec P)) + Z.of_nat (length l)).
    { induction l as [|a l IH]; [cbn; lia|]. cbn [app nodup length]. destruct (in_dec point_eq_dec a (l ++ P)); cbn [length]; lia. }
    apply (G (verts (sup w h))).
Qed.
Lemma distinct_cons p P : distinct (p :: P) = if in_dec point_eq_dec p P then distinct P else distinct P + 1.
Proof. unfold distinct. cbn [nodup]. destruct (in_dec point_eq_dec p P); cbn [length]; lia. Qed.

(* ---------------------------------------------------------------- *)
(** * The initial state *)
Lemma empty_slots w h g : new_grid 10 10 w h = Some g -> slots_ok 10 [] g [].
Proof.
  intros E0. assert (g = Grid (repeat (repeat [] (Z.to_nat 10)) (Z.to_nat 10)) 10 10 (fdiv (f64_of_Z h) (f64_of_Z 10)) (fdiv (f64_of_Z w) (f64_of_Z 10))) as ->.
  { symmetry. injection E0. auto. }
  clear E0. constructor.
  - unfold grid_shape. cbn [g_cols g_rows g_cells]. rewrite repeat_length. repeat split; try lia.
    intros col I. apply repeat_spec in I. subst col. rewrite repeat_length. reflexivity.
  - cbn. lia.
  - constructor.
  - intros i. split; [intros []|]. intros (t & E & _). apply znth_Some in E. destruct E as [_ E]. destruct (Z.to_nat i); discriminate.
  - intros x y l E. unfold cell in E. cbn [g_cells] in E. destruct (znth _ x) as [col|] eqn:E1; [|discriminate].
    apply znth_Some in E1. destruct E1 as [_ E1]. apply nth_error_In, repeat_spec in E1. subst col.
    apply znth_Some in E. destruct E as [_ E]. apply nth_error_In, repeat_spec in E. subst l. constructor.
  - intros x y l i E. unfold cell in E. cbn [g_cells] in E. destruct (znth _ x) as [col|] eqn:E1; [|discriminate].
    apply znth_Some in E1. destruct E1 as [_ E1]. apply nth_error_In, repeat_spec in E1. subst col.
    apply znth_Some in E. destruct E as [_ E]. apply nth_error_In, repeat_spec in E. subst l. split; [intros []|].
    intros (t & E & _). apply znth_Some in E. destruct E as [_ E]. destruct (Z.to_nat i); discriminate.
Qed.

Lemma super_ccw w h : size_ok w h -> ccw (new_super_triangle w h) = Tri (sB w h) (sA w h) (sC w h).
Proof.
  intros S. pose proof S as (Hw & Hh & Hm). destruct (super_vertices w h ltac:(lia) ltac:(lia)) as (A & B & C). unfold ccw. rewrite A, B, C.
  pose proof (sup_pos w h S) as Q. unfold pos, sup in Q. cbn [ta tb tc] in Q.
  replace (orient (sA w h) (sB w h) (sC w h)) with (- orient (sA w h) (sC w h) (sB w h)) by (unfold orient; ring).
  destruct (Z.ltb_spec (- orient (sA w h) (sC w h) (sB w h)) 0); [reflexivity|lia].
Qed.

Lemma rot_start s t : t = Tri (tc s) (ta s) (tb s) -> pos s -> delaunay_tiling s [] [t].
Proof.
  intros -> H. pose proof (start_delaunay s H) as D. destruct D as [D1 D2 D3 D4 D5]. destruct s as [a b c]. cbn [ta tb tc] in *.
  constructor; [constructor| | | |].
  - intros u v. unfold net. cbn [flat_map tedges ta tb tc app]. rewrite !count_cons. cbn. lia.
  - constructor; [|constructor]. unfold pos in *. cbn [ta tb tc] in *. unfold orient in *. lia.
  - exact H.
  - intros x [].
  - intros t v [<-|[]] I. rewrite app_nil_r. unfold verts in *. cbn [ta tb tc In] in *. tauto.
  - intros t x [<-|[]] I. specialize (D4 (Tri a b c) x (or_introl eq_refl) I). unfold tinc in *. cbn [ta tb tc] in *.
    rewrite <- incirc_rot. exact D4.
  - intros x [].
Qed.

Theorem new_delaunay_ok w h : size_ok w h -> exists d, new_delaunay w h = Some d /\ dstate_ok w h [] d.
Proof.
  intros S. pose proof S as (Hw & Hh & Hm). unfold new_delaunay.
  destruct (new_grid 10 10 w h) as [g|] eqn:EG; [|discriminate]. pose proof (empty_slots w h g EG) as S0.
  destruct (new_point_map_ok 100 ltac:(lia)) as (pm & -> & _ & PM).
  pose proof (super_not_freed w h ltac:(lia) ltac:(lia) Hm) as NF.
  destruct (add_triangle_ok 10 [] g [] (new_super_triangle w h) S0 NF) as (tris & g' & free & -> & S1 & G1 & P1 & _); [intros _; cbn; lia|].
  eexists. split; [reflexivity|]. cbn [live filter] in P1. apply Permutation_sym, Permutation_length_1_inv in P1.
  constructor; cbn [d_tris d_grid d_pmap d_free d_super d_num d_unique].
  - exact S1.
  - eapply geo_same; [|exact G1]. injection EG as <-. repeat split.
  - rewrite P1. cbn [map]. rewrite (super_ccw w h S). apply rot_start; [reflexivity|apply sup_pos, S].
  - intros q [].
  - intros t I. rewrite P1 in I. destruct I as [<-|[]]. reflexivity.
  - exact PM.
  - reflexivity.
  - reflexivity.
  - reflexivity.
Qed.

(* ---------------------------------------------------------------- *)
(** * One insertion *)
Lemma foldM_ext {A S} (f g : S -> A -> option S) l : (forall s a, In a l -> f s a = g s a) -> forall s, foldM f l s = foldM g l s.
Proof.
  induction l as [|a l IH]; intros H s; [reflexivity|]. cbn [foldM]. rewrite H by (left; reflexivity).
  destruct (g s a); [|reflexivity]. apply IH. intros. apply H. right. assumption.
Qed.
Lemma foldM_map {A B S} (f : S -> B -> option S) (m : A -> B) l : forall s, foldM (fun s a => f s (m a)) l s = foldM f (map m l) s.
Proof. induction l as [|a l IH]; intros s; [reflexivity|]. cbn [foldM map]. destruct (f s (m a)); [apply IH|reflexivity]. Qed.

Lemma ccw_new B e p : 0 < orient (fst (dir B e)) (snd (dir B e)) p ->
  ccw (new_triangle (fst e) (snd e) p) = Tri (fst (dir B e)) (snd (dir B e)) p.
Proof.
  unfold dir, ccw, new_triangle. cbn [d_a d_b d_c]. destruct (edge_in_dec e _); cbn [fst snd]; intros H.
  - destruct (Z.ltb_spec (orient (fst e) (snd e) p) 0); [lia|reflexivity].
  - rewrite orient_swap in H. destruct (Z.ltb_spec (orient (fst e) (snd e) p) 0); [reflexivity|lia].
Qed.
Lemma dir_ends B e v : v = fst e \/ v = snd e <-> v = fst (dir B e) \/ v = snd (dir B e).
Proof. unfold dir. destruct (edge_in_dec e _); cbn [fst snd]; tauto. Qed.
Lemma dir_nonzero B e p : 0 < orient (fst (dir B e)) (snd (dir B e)) p -> orient (fst e) (snd e) p <> 0.
Proof. unfold dir. destruct (edge_in_dec e _); cbn [fst snd]; [lia|]. rewrite orient_swap. lia. Qed.

(** The triangles [A] become [B]: some triangles, which satisfy [Pr], are replaced by
    triangles with corners among theirs and [p]. *)
Definition replaced (Pr : dtri -> Prop) (p : point) (A B : list dtri) : Prop :=
  exists R N K, Permutation A (R ++ K) /\ Permutation B (N ++ K) /\ (forall t, In t R -> Pr t) /\
    forall t v, In t N -> In v (verts (ccw t)) -> v = p \/ exists r, In r R /\ In v (verts (ccw r)).

Theorem insert_change w h P d p : size_ok w h -> dstate_ok w h P d -> in_image w h p -> lookup_complete d p ->
  mult P p < 65535 -> distinct (p :: P) <= 32765 ->
  exists d', insert d p = Some d' /\ dstate_ok w h (p :: P) d' /\ replaced (fun t => 0 <= tinc (ccw t) p) p (live (d_tris d)) (live (d_tris d')).
Proof.
  intros S O Hp LC Hm HD. unfold insert.
  destruct (add_point_ok (d_pmap d) P p (ds_pm _ _ _ _ O) (in_image_hashable _ _ _ S Hp) Hm) as (pm & -> & _ & PM).
  pose proof (point_cell_range w h (d_grid d) p S (ds_geo _ _ _ _ O) Hp) as [CX CY].
  unfold group. destruct (point_cell (d_grid d) p) as [x y] eqn:EC. cbn [fst snd] in CX, CY.
  destruct (cell_Some 10 (d_grid d) x y (s_shape _ _ _ _ (ds_slots _ _ _ _ O)) CX CY) as (l & El). rewrite El, circles_rm.
  destruct (rm_loop_ok 10 true (fun t => contains_point t p) add_tri_edges (x, y) (length l) 0 (d_tris d) (d_grid d) (d_free d) [] l
     (ds_slots _ _ _ _ O) El eq_refl ltac:(intros; lia)) as (tris & g & free & R & -> & S1 & G1 & PR & HR & HL & _).
  assert (CE : forall t, In t (live (d_tris d)) -> contains_point t p = (0 <=? tinc (ccw t) p)).
  { intros t I. apply (contains_exact w h); [exact S|eapply ds_corners; eauto|exact Hp]. }
  set (B := map ccw R). set (K := map ccw (live tris)). set (es := fold_left add_tri_edges R []).
  assert (HBK : Permutation (map ccw (live (d_tris d))) (B ++ K)) by (unfold B, K; rewrite <- map_app; apply Permutation_map, PR).
  assert (HB : forall t, In t B -> 0 <= tinc t p).
  { intros t I. apply in_map_iff in I. destruct I as (u & <- & I). destruct (HR u I) as [T1 _].
    rewrite CE in T1; [apply Z.leb_le; exact T1|]. eapply Permutation_in; [apply Permutation_sym, PR|apply in_or_app; left; exact I]. }
  assert (HK : forall t, In t K -> tinc t p < 0).
  { intros t I. apply in_map_iff in I. destruct I as (u & <- & I).
    assert (Iu : In u (live (d_tris d))) by (eapply Permutation_in; [apply Permutation_sym, PR|apply in_or_app; right; exact I]).
    destruct (Z_lt_ge_dec (tinc (ccw u) p) 0) as [Q|Q]; [exact Q|]. exfalso.
    pose proof (LC u Iu ltac:(lia)) as J. rewrite EC in J. specialize (HL u I J). cbn beta in HL. rewrite CE in HL by exact Iu. apply Z.leb_gt in HL. lia. }
  pose proof (sup_inner w h p S Hp) as IP. pose proof (ds_del _ _ _ _ O) as DT.
  destruct (cavity_edges R) as [HE1 HE2].
  { apply Forall_forall. intros t I. eapply B_pos; eauto. }
  { intros a b. eapply (B_once (sup w h) P _ B K); eauto. }
  fold B es in HE1, HE2.
  pose proof (insert_delaunay (sup w h) P _ B K p (map (dir B) es) DT IP HBK HB HK HE1 HE2) as INS.
  assert (ST : forall e, In e es -> 0 < orient (fst (dir B e)) (snd (dir B e)) p).
  { intros e I. eapply (star (sup w h) P _ B K p (map (dir B) es)); eauto. rewrite <- surjective_pairing. apply in_map. exact I. }
  assert (VE : forall e v, In e es -> v = fst e \/ v = snd e -> exists u, In u R /\ In v (verts (ccw u))).
  { intros e v I Hv. apply (dir_ends B) in Hv.
    assert (J : In (dir B e) (map (dir B) es)) by (apply in_map; exact I). rewrite (surjective_pairing (dir B e)) in J.
    apply HE2 in J. destruct J as [J _]. apply in_flat_map in J. destruct J as (t & It & J). unfold B in It. apply in_map_iff in It. destruct It as (u & <- & Iu).
    exists u. split; [exact Iu|]. unfold tedges in J. unfold verts. destruct (dir B e) as [e1 e2]. cbn [fst snd] in *.
    destruct J as [[= <- <-]|[[= <- <-]|[[= <- <-]|[]]]]; destruct Hv as [-> | ->]; cbn [In]; auto. }
  assert (OKE : forall e, In e es -> okv w h (fst e) /\ okv w h (snd e)).
  { intros e I. assert (Q : forall v, v = fst e \/ v = snd e -> okv w h v).
    { intros v Hv. destruct (VE e v I Hv) as (u & Iu & V).
      assert (CU : corners_ok w h u) by (eapply ds_corners; [exact O|]; eapply Permutation_in; [apply Permutation_sym, PR|apply in_or_app; left; exact Iu]).
      apply ccw_verts in V. destruct CU as (C1 & C2 & C3). destruct V as [->|[->| ->]]; assumption. }
    split; apply Q; auto. }
  set (news := map (fun e => new_triangle (fst e) (snd e) p) es).
  assert (EQ : forall st, foldM (connect p) es st = foldM (fun st t => let '(tris, g, free) := st in add_triangle tris g free t) news st).
  { intros st. unfold news. rewrite <- foldM_map. apply foldM_ext. intros [[ts gg] ff] e I. destruct (OKE e I). rewrite (connect_exact w h) by assumption.
    pose proof (dir_nonzero B e p (ST e I)). destruct (Z.eqb_spec (orient (fst e) (snd e) p) 0); [contradiction|reflexivity]. }
  rewrite EQ.
  assert (CN : map ccw news = fan p (map (dir B) es)).
  { unfold news, fan. rewrite !map_map. apply map_ext_in. intros e I. apply ccw_new, ST, I. }
  assert (LEN : Z.of_nat (length (live tris)) + Z.of_nat (length news) <= 65536).
  { apply delaunay_count in INS. rewrite app_length, <- CN in INS. unfold K in INS. rewrite !map_length in INS. lia. }
  destruct (add_list_ok 10 news tris g free S1) as (tris' & g' & free' & -> & S2 & G2 & P2).
  { intros t I. apply in_map_iff in I. destruct I as (e & <- & I). unfold is_freed, new_triangle. cbn [d_a]. apply Z.eqb_neq.
    eapply okv_not_freed; [exact S|apply OKE, I]. }
  { exact LEN. }
  eexists. split; [reflexivity|]. split.
  2: { exists R, news, (live tris). cbn [d_tris]. split; [exact PR|]. split; [exact P2|]. split.
       - intros t I. apply HB. apply in_map. exact I.
       - intros t v I V. apply in_map_iff in I. destruct I as (e & <- & I). apply ccw_verts in V. unfold new_triangle in V. cbn [d_a d_b d_c] in V.
         destruct V as [V|[V|V]]; [right; eapply VE; eauto|right; eapply VE; eauto|left; exact V]. }
  constructor; cbn [d_tris d_grid d_pmap d_free d_super d_num d_unique].
  - exact S2.
  - eapply geo_same; [|exact G2]. eapply geo_same; [|exact G1]. apply O.
  - eapply delaunay_perm; [|exact INS]. apply Permutation_sym. etransitivity; [apply Permutation_map, P2|]. rewrite map_app, CN. apply Permutation_app_comm.
  - intros q [<-|I]; [exact Hp|apply O, I].
  - intros t I. eapply Permutation_in in I; [|exact P2]. apply in_app_or in I. destruct I as [I|I].
    + apply in_map_iff in I. destruct I as (e & <- & _). reflexivity.
    + apply (ds_own _ _ _ _ O). eapply Permutation_in; [apply Permutation_sym, PR|apply in_or_app; right; exact I].
  - exact PM.
  - rewrite (ds_num _ _ _ _ O). cbn [length]. lia.
  - rewrite (ds_unique _ _ _ _ O). pose proof (distinct_cons p P) as DC. unfold distinct in DC. rewrite DC.
    unfold mult. rewrite count_occ_cons_eq by reflexivity.
    destruct (in_dec point_eq_dec p P) as [I|I].
    + apply (count_occ_In point_eq_dec) in I. destruct (Z.eqb_spec (Z.of_nat (Datatypes.S (count_occ point_eq_dec P p))) 1); lia.
    + rewrite (proj1 (count_occ_not_In point_eq_dec P p) I). reflexivity.
  - apply O.
Qed.

Theorem insert_ok w h P d p : size_ok w h -> dstate_ok w h P d -> in_image w h p -> lookup_complete d p ->
  mult P p < 65535 -> distinct (p :: P) <= 32765 ->
  exists d', insert d p = Some d' /\ dstate_ok w h (p :: P) d'.
Proof. intros S O Hp LC Hm HD. destruct (insert_change w h P d p S O Hp LC Hm HD) as (d' & E & O' & _). eauto. Qed.
