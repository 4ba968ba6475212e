(** Triangulations kept by the fitness functions (C28): the points they hold. *)
From Coq Require Import ZArith Reals List Bool Arith Lia Lra Permutation.
From Flocq Require Import Core IEEE754.BinarySingleNaN.
From Verif Require Import GoNum M_Norm M_Slice M_Geom S_Geom M_Image M_Raster S_Raster M_Delaunay S_Delaunay M_Algo M_Fitness S_Fitness S_Norm FloatLemmas
  L_Slice L_Geom L_PMap L_Super L_Slots L_Slots2 L_Plane L_BW L_Insert L_Reach L_Hold.
Import ListNotations.
Open Scope Z_scope.

Lemma insert_alike d e p d' : alike d e -> insert d p = Some d' -> exists e', insert e p = Some e' /\ alike d' e'.
Proof.
  intros (A1 & A2 & A3 & A4 & A5). unfold insert. rewrite A1, A2, A3, A4, A5. destruct (add_point (d_pmap e) p) as [[pm c]|]; [|discriminate].
  destruct (group (d_grid e) p); [|discriminate]. destruct (remove_circles_loop _ _ _ _ _ _ _ _) as [[[[tris g] free] es]|]; [|discriminate].
  destruct (foldM (connect p) es (tris, g, free)) as [[[tris' g'] free']|]; [|discriminate]. intros [= <-]. eexists. split; [reflexivity|]. repeat split.
Qed.
Lemma remove_alike sort d e p d' : alike d e -> remove sort d p = Some d' -> exists e', remove sort e p = Some e' /\ alike d' e'.
Proof.
  intros (A1 & A2 & A3 & A4 & A5). unfold remove, remove_star. rewrite A1, A2, A3, A4, A5. destruct (remove_point (d_pmap e) p) as [[pm c]|]; [|discriminate].
  destruct (negb (c =? 0)); [intros [= <-]; eexists; split; [reflexivity|]; repeat split|].
  destruct (group (d_grid e) p); [|discriminate]. destruct (remove_vertex_loop _ _ _ _ _ _ _ _) as [[[[tris g] free] hull]|]; [|discriminate].
  destruct (sort hull) as [hull'|]; [|discriminate]. destruct (ear_loop _ p _) as [ts|]; [|discriminate]. destruct (add_triangles _ ts) as [[[tris' g'] free']|]; [|discriminate].
  intros [= <-]. eexists. split; [reflexivity|]. repeat split.
Qed.

(** The cells keep their number and size. *)
Definition same_grid (g g' : grid) : Prop := same_geo g g' /\ map (@length (list Z)) (g_cells g') = map (@length (list Z)) (g_cells g).
Lemma same_grid_refl g : same_grid g g. Proof. split; [apply same_geo_refl|reflexivity]. Qed.
Lemma same_grid_trans a b c : same_grid a b -> same_grid b c -> same_grid a c.
Proof. intros [A B] [C D]. split; [eapply same_geo_trans; eauto|congruence]. Qed.
Lemma map_set_same {A B} (f : A -> B) i v l a : nth_error l i = Some a -> f v = f a -> map f (set_nth i v l) = map f l.
Proof.
  revert i; induction l as [|x l IH]; intros [|i]; try discriminate; cbn [nth_error set_nth map].
  - intros [= ->] ->. reflexivity.
  - intros H E. rewrite (IH i H E). reflexivity.
Qed.
Lemma znth_error {A} (l : list A) i a : znth l i = Some a -> nth_error l (Z.to_nat i) = Some a.
Proof. unfold znth. destruct (i <? 0); [discriminate|auto]. Qed.
Lemma set_cell_grid g x y v g' : set_cell g x y v = Some g' -> same_grid g g'.
Proof.
  unfold set_cell. destruct (znth (g_cells g) x) as [col|] eqn:E1; [|discriminate]. destruct (zset col y v) as [col'|] eqn:E2; [|discriminate].
  destruct (zset (g_cells g) x col') as [cs|] eqn:E3; [|discriminate]. intros [= <-]. split; [repeat split|]. cbn [g_cells].
  unfold zset in E3. rewrite E1 in E3. injection E3 as <-. eapply map_set_same; [apply znth_error, E1|]. eapply zset_length, E2.
Qed.
Lemma cells_grid f l : forall g g', foldM (on_cell f) l g = Some g' -> same_grid g g'.
Proof.
  induction l as [|xy l IH]; intros g g'; cbn [foldM]; [intros [= <-]; apply same_grid_refl|]. destruct (on_cell f g xy) as [g1|] eqn:E; [|discriminate].
  intros H. eapply same_grid_trans; [|apply IH, H]. unfold on_cell in E. destruct (cell g (fst xy) (snd xy)); [|discriminate]. eapply set_cell_grid, E.
Qed.
Lemma add_triangle_grid tris g free t tris' g' free' : add_triangle tris g free t = Some (tris', g', free') -> same_grid g g'.
Proof.
  unfold add_triangle. destruct free as [|i free].
  - destruct (grid_add g t _) as [g1|] eqn:E; [|discriminate]. intros [= <- <- <-]. eapply cells_grid, E.
  - destruct (zset tris i t); [|discriminate]. destruct (grid_add g t i) as [g1|] eqn:E; [|discriminate]. intros [= <- <- <-]. eapply cells_grid, E.
Qed.
Lemma add1_grid l : forall tris g free tris' g' free', foldM add1 l (tris, g, free) = Some (tris', g', free') -> same_grid g g'.
Proof.
  induction l as [|t l IH]; intros tris g free tris' g' free'; cbn [foldM]; [intros [= <- <- <-]; apply same_grid_refl|].
  destruct (add1 (tris, g, free) t) as [[[t1 g1] f1]|] eqn:E; [|discriminate]. intros H. eapply same_grid_trans; [eapply add_triangle_grid, E|eapply IH, H].
Qed.
Lemma connect_grid p es : forall tris g free tris' g' free', foldM (connect p) es (tris, g, free) = Some (tris', g', free') -> same_grid g g'.
Proof.
  induction es as [|e l IH]; intros tris g free tris' g' free'; cbn [foldM]; [intros [= <- <- <-]; apply same_grid_refl|].
  destruct (connect p (tris, g, free) e) as [[[t1 g1] f1]|] eqn:E; [|discriminate]. intros H. eapply same_grid_trans; [|eapply IH, H].
  unfold connect in E. destruct (_ =? 0); [injection E as <- <- <-; apply same_grid_refl|]. eapply add_triangle_grid, E.
Qed.
Lemma rm_loop_grid {Acc} chk test (upd : Acc -> dtri -> Acc) xy n : forall i tris g free acc tris' g' free' acc',
  rm_loop chk test upd n i xy tris g free acc = Some (tris', g', free', acc') -> same_grid g g'.
Proof.
  induction n as [|n IH]; intros i tris g free acc tris' g' free' acc'; cbn [rm_loop]; [intros [= <- <- <- <-]; apply same_grid_refl|].
  destruct (cell g (fst xy) (snd xy)) as [l|]; [|discriminate]. destruct (nth_error l i) as [t|]; [|discriminate]. destruct (znth tris t) as [tri|]; [|discriminate].
  destruct (chk && is_freed tri); [discriminate|]. destruct (test tri); [|apply IH]. destruct (mark_free tris free t) as [[tris1 free1]|]; [|discriminate].
  destruct (grid_remove g tri t) as [g1|] eqn:E; [|discriminate]. intros H. eapply same_grid_trans; [eapply cells_grid, E|eapply IH, H].
Qed.
Lemma insert_grid d p d' : insert d p = Some d' -> same_grid (d_grid d) (d_grid d') /\ length (d_pmap d') = length (d_pmap d).
Proof.
  unfold insert. destruct (add_point (d_pmap d) p) as [[pm c]|] eqn:EP; [|discriminate]. destruct (group (d_grid d) p); [|discriminate]. rewrite circles_rm.
  destruct (rm_loop _ _ _ _ _ _ _ _ _ _) as [[[[tris g] free] es]|] eqn:ER; [|discriminate]. destruct (foldM (connect p) es (tris, g, free)) as [[[tris' g'] free']|] eqn:EC; [|discriminate].
  intros [= <-]. cbn [d_grid d_pmap]. split; [eapply same_grid_trans; [eapply rm_loop_grid, ER|eapply connect_grid, EC]|].
  unfold add_point in EP. destruct (bucket (d_pmap d) p) as [[i b]|]; [|discriminate]. destruct (bucket_incr p b) as [[b' c']|].
  - destruct (zset _ i b') eqn:E; [|discriminate]. cbn in EP. injection EP as <- <-. eapply zset_length, E.
  - destruct (zset _ i _) eqn:E; [|discriminate]. cbn in EP. injection EP as <- <-. eapply zset_length, E.
Qed.
Lemma remove_grid sort d p d' : remove sort d p = Some d' -> same_grid (d_grid d) (d_grid d') /\ length (d_pmap d') = length (d_pmap d).
Proof.
  unfold remove. destruct (remove_point (d_pmap d) p) as [[pm c]|] eqn:EP; [|discriminate].
  assert (L : length pm = length (d_pmap d)).
  { unfold remove_point in EP. destruct (bucket (d_pmap d) p) as [[i b]|]; [|discriminate]. destruct (find_index _ b) as [k|]; [|discriminate]. destruct (nth_error b k); [|discriminate].
    cbv zeta in EP. destruct (_ =? 0); destruct (zset _ i _) eqn:E; try discriminate; cbn in EP; injection EP as <- <-; eapply zset_length, E. }
  destruct (negb (c =? 0)); [intros [= <-]; split; [apply same_grid_refl|exact L]|].
  unfold remove_star. destruct (group (d_grid d) p); [|discriminate]. rewrite vertex_rm. destruct (rm_loop _ _ _ _ _ _ _ _ _ _) as [[[[tris g] free] hull]|] eqn:ER; [|discriminate].
  destruct (sort hull) as [hull'|]; [|discriminate]. destruct (ear_loop _ p _) as [ts|]; [|discriminate]. rewrite add_triangles_add1.
  destruct (foldM add1 _ (tris, g, free)) as [[[tris' g'] free']|] eqn:EA; [|discriminate]. intros [= <-]. cbn [d_grid d_pmap].
  split; [eapply same_grid_trans; [eapply rm_loop_grid, ER|eapply add1_grid, EA]|exact L].
Qed.
Lemma new_grid_same w h d : new_delaunay w h = Some d -> exists g0, new_grid 10 10 w h = Some g0 /\ same_grid g0 (d_grid d) /\ Z.of_nat (length (d_pmap d)) = 100.
Proof.
  unfold new_delaunay. destruct (new_grid 10 10 w h) as [g0|]; [|discriminate]. destruct (new_point_map_ok 100 eq_refl) as (pm & EP & L & _). rewrite EP.
  generalize (new_super_triangle w h). intros s. destruct (add_triangle [] g0 [] s) as [[[tris g'] free]|] eqn:EA; [|discriminate]. intros E. injection E as <-. cbn [d_grid d_pmap].
  exists g0. split; [reflexivity|]. split; [eapply add_triangle_grid, EA|exact L].
Qed.
Lemma built_grid w h P d : built w h P d -> exists g0, new_grid 10 10 w h = Some g0 /\ same_grid g0 (d_grid d) /\ Z.of_nat (length (d_pmap d)) = 100.
Proof.
  induction 1 as [d E|P d p d' B (g0 & I1 & I2 & I3) Hp Hm E|P d sort p P' d' B (g0 & I1 & I2 & I3) Hp T Hs E].
  - apply new_grid_same, E.
  - exists g0. apply insert_grid in E as [E1 E2]. split; [exact I1|]. split; [eapply same_grid_trans; eauto|rewrite E2; exact I3].
  - exists g0. apply remove_grid in E as [E1 E2]. split; [exact I1|]. split; [eapply same_grid_trans; eauto|rewrite E2; exact I3].
Qed.
Lemma mapM_nth {A B} (f : nat -> option B) (g : A -> B) (l : list A) : (forall i a, nth_error l i = Some a -> f i = Some (g a)) -> mapM f (seq 0 (length l)) = Some (map g l).
Proof.
  revert f; induction l as [|a l IH]; intros f H; [reflexivity|]. cbn [length seq mapM map]. rewrite (H 0%nat a eq_refl).
  rewrite <- seq_shift. assert (E : mapM f (map S (seq 0 (length l))) = mapM (fun i => f (S i)) (seq 0 (length l))).
  { generalize (seq 0 (length l)). induction l0 as [|x t IHt]; [reflexivity|]. cbn [map mapM]. rewrite IHt. reflexivity. }
  rewrite E, (IH (fun i => f (S i))); [reflexivity|]. intros i b Hb. apply (H (S i)), Hb.
Qed.
Lemma table_set_same {A} (t o : list (list A)) : length t = length o -> table_set t o = Some o.
Proof. intros L. unfold table_set. rewrite L. rewrite (mapM_nth _ (fun a => a) o); [rewrite map_id; reflexivity|auto]. Qed.
Lemma grid_set_same g o : same_grid o g -> grid_set g o = Some o.
Proof.
  intros [(A & B & C & D) L]. unfold grid_set. assert (Ln : length (g_cells g) = length (g_cells o)) by (rewrite <- (map_length (@length (list Z)) (g_cells g)), L, map_length; reflexivity).
  rewrite Ln. rewrite (mapM_nth _ (fun a => a) (g_cells o)).
  - rewrite map_id, A, B, C, D. destruct o; reflexivity.
  - intros i a Ha. rewrite Ha. destruct (nth_error (g_cells g) i) as [c|] eqn:E.
    + apply table_set_same. apply (map_nth_error (@length (list Z))) in Ha, E. rewrite L in E. congruence.
    + apply nth_error_None in E. assert (i < length (g_cells o))%nat by (apply nth_error_Some; congruence). lia.
Qed.
Lemma same_grid_sym g o : same_grid g o -> same_grid o g.
Proof. intros [(A & B & C & D) L]. repeat split; congruence. Qed.

(** Set of triangulations of the same size copies everything but the counters. *)
Lemma d_set_alike w h P Q d o d0 o0 d1 : built w h P d0 -> alike d d0 -> built w h Q o0 -> alike o o0 -> d_set d o = Some d1 -> alike d1 o0.
Proof.
  intros B1 (A1 & A2 & A3 & A4 & A5) B2 (C1 & C2 & C3 & C4 & C5). destruct (built_grid _ _ _ _ B1) as (g1 & G1 & S1 & L1). destruct (built_grid _ _ _ _ B2) as (g2 & G2 & S2 & L2).
  assert (g2 = g1) by congruence. subst g2. unfold d_set. rewrite A2, A3, C2, C3. rewrite grid_set_same by (eapply same_grid_trans; [apply same_grid_sym, S2|exact S1]).
  rewrite table_set_same by lia. intros [= <-]. repeat split; assumption.
Qed.
Lemma d_set_total w h P Q d o d0 o0 : built w h P d0 -> alike d d0 -> built w h Q o0 -> alike o o0 -> exists d1, d_set d o = Some d1.
Proof.
  intros B1 (A1 & A2 & A3 & A4 & A5) B2 (C1 & C2 & C3 & C4 & C5). destruct (built_grid _ _ _ _ B1) as (g1 & G1 & S1 & L1). destruct (built_grid _ _ _ _ B2) as (g2 & G2 & S2 & L2).
  assert (g2 = g1) by congruence. subst g2. unfold d_set. rewrite A2, A3, C2, C3. rewrite grid_set_same by (eapply same_grid_trans; [apply same_grid_sym, S2|exact S1]).
  rewrite table_set_same by lia. eauto.
Qed.

(** A point of the unit square is rounded to a point of the image. *)
Lemma coord_range x w : in_unit x -> 0 <= w <= 8191 -> 0 <= i16 (fast_round (fmul x (f64_of_Z w))) <= w.
Proof.
  intros (Hf & H0 & H1) Hw. assert (H53 : Z.abs w <= 2 ^ 53 /\ Z.abs (2 * w + 1) <= 2 ^ 53) by lia. destruct (of_Z_R w ltac:(lia)) as [Fw Ew]. fold (R64 x) in H0, H1.
  assert (Hwr : (0 <= IZR w <= 8191)%R) by (split; apply IZR_le; lia).
  assert (Hm : (0 <= R64 x * IZR w <= IZR w)%R).
  { split; [apply Rmult_le_pos; lra|]. rewrite <- (Rmult_1_l (IZR w)) at 2. apply Rmult_le_compat_r; lra. }
  assert (B51 : (8191 <= bpow radix2 51)%R) by (apply (IZR_le 8191 (2 ^ 51)); lia).
  assert (B1023 : (bpow radix2 51 <= bpow radix2 1023)%R) by (apply bpow_le; lia).
  destruct (fmul_R x (f64_of_Z w) Hf Fw) as [Fm Em]. { rewrite Ew, Rabs_pos_eq by lra. lra. }
  rewrite Ew in Em.
  assert (Hr : (0 <= R64 (fmul x (f64_of_Z w)) <= IZR w)%R).
  { rewrite Em. split; [rewrite <- rnd_0; apply rnd_le; lra|]. apply Rle_trans with (rnd (IZR w)); [apply rnd_le; lra|rewrite rnd_Z by apply H53; lra]. }
  rewrite fast_round_R; [|exact Fm|lra].
  set (v := (R64 (fmul x (f64_of_Z w)) + / 2)%R) in *.
  assert (Hl : (0 <= rnd v)%R) by (rewrite <- rnd_0; apply rnd_le; unfold v; lra).
  assert (Hu : (rnd v < IZR w + 1)%R).
  { apply Rle_lt_trans with (IZR (2 * w + 1) * bpow radix2 (-1))%R.
    - rewrite <- (rnd_dy _ _ (proj2 H53)) by lia. apply rnd_le. change (bpow radix2 (-1)) with (/ 2)%R. rewrite plus_IZR, mult_IZR. unfold v. lra.
    - change (bpow radix2 (-1)) with (/ 2)%R. rewrite plus_IZR, mult_IZR. lra. }
  assert (Hfl : 0 <= Zfloor (rnd v) <= w).
  { split; [apply Zfloor_lub; exact Hl|]. apply Z.lt_succ_r, lt_IZR. rewrite succ_IZR. eapply Rle_lt_trans; [apply Zfloor_lb|exact Hu]. }
  rewrite i16_id; [exact Hfl|unfold int16_range; change (2 ^ 15) with 32768; lia].
Qed.
Lemma point_in_image im p : size_ok (fi_w im) (fi_h im) -> pt_in_unit p -> in_image (fi_w im) (fi_h im) (mut_point im p).
Proof.
  intros S [A B]. unfold mut_point, create_point, in_image. cbn [px py]. unfold size_ok in S. split; apply coord_range; (assumption || lia).
Qed.

Section Tri.
Context (im : fimg) (srt : point -> list point -> option (list point)) (l : nat).
Hypothesis Hsize : size_ok (fi_w im) (fi_h im).
Hypothesis Hsort : forall p q q', srt p q = Some q' -> Permutation q q'.
Hypothesis Hl : Z.of_nat l <= 65535.
Notation w := (fi_w im). Notation h := (fi_h im). Notation mp := (mut_point im).

Lemma mult_length P p : mult P p <= Z.of_nat (length P).
Proof. unfold mult. apply inj_le. induction P as [|q P IH]; cbn [count_occ length]; [lia|]. destruct (point_eq_dec q p); lia. Qed.
Lemma inserts_built {A} (f : A -> point) pts : forall P d d0 d', built w h P d0 -> alike d d0 -> Forall (fun a => in_image w h (f a)) pts -> Z.of_nat (length P + length pts) <= 65535 ->
  foldM (fun d a => insert d (f a)) pts d = Some d' -> exists P' d0', built w h P' d0' /\ alike d' d0' /\ Permutation P' (P ++ map f pts).
Proof.
  induction pts as [|a pts IH]; intros P d d0 d' B Ak F L; cbn [foldM map].
  - intros [= <-]. exists P, d0. rewrite app_nil_r. auto.
  - destruct (insert d (f a)) as [d1|] eqn:E; [|discriminate]. intros H. inversion F as [|x y F1 F2]; subst x y. cbn [length] in L.
    destruct (insert_alike _ _ _ _ Ak E) as (e1 & E1 & A1). pose proof (mult_length P (f a)) as M.
    assert (B1 : built w h (f a :: P) e1) by (eapply built_insert; [exact B|exact F1|lia|exact E1]).
    destruct (IH (f a :: P) d1 e1 d' B1 A1 F2 ltac:(cbn [length]; lia) H) as (P' & d0' & B2 & A2 & Pm). exists P', d0'. split; [exact B2|]. split; [exact A2|].
    rewrite Pm. cbn [app]. apply Permutation_middle.
Qed.
Lemma take_out_In p P : In p P -> exists P', take_out p P = Some P'.
Proof. intros I. destruct (take_out p P) as [P'|] eqn:E; [eauto|]. apply take_out_None in E. contradiction. Qed.
Lemma removes_built {A} (f : A -> point) ms : forall P rest d d0 d', built w h P d0 -> alike d d0 -> Forall (fun a => in_image w h (f a)) ms -> Permutation P (map f ms ++ rest) ->
  foldM (fun d a => remove (srt (f a)) d (f a)) ms d = Some d' -> exists P' d0', built w h P' d0' /\ alike d' d0' /\ Permutation P' rest.
Proof.
  induction ms as [|a ms IH]; intros P rest d d0 d' B Ak F Pm; cbn [foldM map].
  - intros [= <-]. exists P, d0. auto.
  - destruct (remove (srt (f a)) d (f a)) as [d1|] eqn:E; [|discriminate]. intros H. inversion F as [|x y F1 F2]; subst x y.
    destruct (remove_alike _ _ _ _ _ Ak E) as (e1 & E1 & A1).
    destruct (take_out_In (f a) P) as (P' & T). { eapply Permutation_in; [apply Permutation_sym, Pm|left; reflexivity]. }
    assert (B1 : built w h P' e1) by (eapply built_remove; [exact B|exact F1|exact T|apply Hsort|exact E1]).
    eapply IH; [exact B1|exact A1|exact F2| |exact H]. apply take_out_spec in T. apply (Permutation_cons_inv (a := f a)). rewrite T. exact Pm.
Qed.

Definition hold (pts : list npoint) (d : delaunay) : Prop := tri_of im pts d.
Lemma okp_image pts : Forall pt_in_unit pts -> Forall (fun p => in_image w h (mp p)) pts.
Proof. apply Forall_impl. intros p Hp. apply point_in_image; assumption. Qed.
Lemma tri_new base pts log d : okp l pts -> next_tri im srt None base pts log = Some d -> hold pts d.
Proof.
  intros [L F]. unfold next_tri. destruct (new_delaunay w h) as [d0|] eqn:E; [|discriminate]. intros H.
  destruct (inserts_built mp pts [] d0 d0 d (built_new _ _ _ E) ltac:(repeat split) (okp_image _ F) ltac:(cbn [length]; lia) H) as (P & e & B & A & Pm). exists P, e. auto.
Qed.
Lemma tri_keep d pts log : next_tri im srt (Some d) None pts log = Some d. Proof. reflexivity. Qed.
Lemma tri_mod q d q' o pts log d' : okp l q -> hold q d -> okp l q' -> hold q' o -> okp l pts -> swaps_out q' pts log ->
  next_tri im srt (Some d) (Some o) pts log = Some d' -> hold pts d'.
Proof.
  intros [L1 F1] (P1 & e1 & B1 & A1 & Pm1) [L2 F2] (P2 & e2 & B2 & A2 & Pm2) [L3 F3] (rest & S1 & S2). unfold next_tri.
  destruct (d_set d o) as [d1|] eqn:E1; [|discriminate]. pose proof (d_set_alike _ _ _ _ _ _ _ _ _ B1 A1 B2 A2 E1) as A3.
  destruct (foldM _ log d1) as [d2|] eqn:E2; [|discriminate]. intros E3.
  assert (G1 : Forall (fun m => in_image w h (mp (m_old m))) log).
  { apply Forall_forall. intros m Hm. apply point_in_image; [exact Hsize|]. rewrite Forall_forall in F2. apply F2. eapply Permutation_in; [apply Permutation_sym, S1|]. apply in_or_app; left. apply in_map, Hm. }
  assert (G2 : Forall (fun m => in_image w h (mp (m_new m))) log).
  { apply Forall_forall. intros m Hm. apply point_in_image; [exact Hsize|]. rewrite Forall_forall in F3. apply F3. eapply Permutation_in; [apply Permutation_sym, S2|]. apply in_or_app; left. apply in_map, Hm. }
  assert (Q1 : Permutation P2 (map (fun m => mp (m_old m)) log ++ map mp rest)).
  { rewrite Pm2, S1, map_app, map_map. reflexivity. }
  destruct (removes_built (fun m => mp (m_old m)) log P2 (map mp rest) d1 e2 d2 B2 A3 G1 Q1 E2) as (P3 & e3 & B3 & A4 & Q2).
  assert (Q3 : Permutation (map mp pts) (map (fun m => mp (m_new m)) log ++ map mp rest)).
  { rewrite S2, map_app, map_map. reflexivity. }
  assert (LL : Z.of_nat (length P3 + length log) <= 65535).
  { rewrite (Permutation_length Q2), map_length. apply Permutation_length in S2. rewrite app_length, map_length in S2. lia. }
  destruct (inserts_built (fun m => mp (m_new m)) log P3 d2 e3 d' B3 A4 G2 LL E3) as (P4 & e4 & B4 & A5 & Q4).
  exists P4, e4. split; [exact B4|]. split; [exact A5|]. rewrite Q4, Q3, Q2. apply Permutation_app_comm.
Qed.

Lemma built_counts P d : built w h P d -> counts_ok P d.
Proof.
  induction 1 as [d E|P d p d' B IH Hp Hm E|P d sort p P' d' B IH Hp T Hs E].
  - destruct (new_delaunay_ok w h Hsize) as (d1 & E1 & O). rewrite E in E1. injection E1 as <-. destruct O. constructor; assumption.
  - eapply insert_counts; eauto.
  - eapply remove_counts; eauto.
Qed.
Lemma tri_of_copies pts d p : tri_of im pts d -> in_image w h p -> copies_of (d_pmap d) p = Some (mult (map mp pts) p).
Proof.
  intros (P & d0 & B & (_ & _ & A & _) & Pm) Hp. rewrite A, <- (mult_perm _ _ p Pm). apply copies_of_ok; [apply co_pm, built_counts, B|eapply in_image_hashable; eauto].
Qed.
End Tri.
