(** C73: the default algorithm from the image to the drawing. *)
From Coq Require Import ZArith Reals List Bool Lia Lra Permutation.
From Flocq Require Import Core IEEE754.BinarySingleNaN.
From Verif Require Import GoNum FloatLemmas M_Norm S_Norm L_Norm M_Geom S_Geom M_Image S_Image L_Image M_Raster S_Raster M_Render M_Delaunay S_Delaunay M_Random P_Random M_Algo S_Algo L_Algo P_Algo M_Chan P_Chan M_Fitness S_Fitness L_Fit2 L_Run2
  P_Norm P_Delaunay P_Remove S_Run S_Run2 P_Run2 P_PolySum P_Run M_Draw S_Draw P_Draw M_Default S_Default.
Import ListNotations.
Open Scope Z_scope.

(** * Mutations *)
Lemma gaussian_ext rate amount d e i pts : (forall k, (i <= k)%nat -> d k = e k) -> gaussian_from rate amount d i pts = gaussian_from rate amount e i pts.
Proof.
  revert i. induction pts as [|p t IH]; intros i H; cbn [gaussian_from]; [reflexivity|]. rewrite (IH (S i)) by (intros k Hk; apply H; lia). rewrite (H i (le_n _)). reflexivity.
Qed.
(** A mutation by the generator is one of the model's, with draws that are no NaNs. *)
Section Gen.
Context {G : Type} (next : G -> Z * G) (float32 : G -> f32 * G) (log exp : f64 -> f64).
Theorem C73_mutate fuel rate amount pts : unit_draws float32 -> log_num log -> forall i g pts' muts g',
  gaussian_gen next float32 log exp fuel rate amount i pts g = Some (pts', muts, g') ->
  exists d, (forall k, is_nan (gd_x (d k)) = false /\ is_nan (gd_y (d k)) = false) /\ gaussian_from rate amount d i pts = (pts', muts).
Proof.
  intros Hd Hl. induction pts as [|old rest IH]; intros i g pts' muts g' H; cbn [gaussian_gen] in H.
  { injection H as <- <- <-. exists (fun _ => GD (f32_dy 0 0) f0 f0). split; [intros k; split; reflexivity|reflexivity]. }
  destruct (float32 g) as [u g1]. destruct (f32lt u rate) eqn:Eu.
  - destruct (norm_float64 next float32 log exp fuel g1) as [| |x g2] eqn:Ex; try discriminate. destruct (norm_float64 next float32 log exp fuel g2) as [| |y g3] eqn:Ey; try discriminate.
    destruct (gaussian_gen _ _ _ _ _ _ _ (S i) rest g3) as [[[r m] g4]|] eqn:E; [|discriminate]. injection H as <- <- <-.
    destruct (IH _ _ _ _ _ E) as (d & N & D). exists (fun k => if Nat.eqb k i then GD u x y else d k). split.
    + intros k. destruct (Nat.eqb k i); [cbn [gd_x gd_y]; split; [exact (C56_num next float32 log exp fuel g1 x g2 Hd Hl Ex)|exact (C56_num next float32 log exp fuel g2 y g3 Hd Hl Ey)]|apply N].
    + cbn [gaussian_from]. rewrite (gaussian_ext rate amount (fun k => if Nat.eqb k i then GD u x y else d k) d (S i) rest), D.
      * rewrite Nat.eqb_refl. cbn [gd_pick gd_x gd_y]. rewrite Eu. reflexivity.
      * intros k Hk. destruct (Nat.eqb_spec k i); [lia|reflexivity].
  - destruct (gaussian_gen _ _ _ _ _ _ _ (S i) rest g1) as [[[r m] g4]|] eqn:E; [|discriminate]. injection H as <- <- <-.
    destruct (IH _ _ _ _ _ E) as (d & N & D). exists (fun k => if Nat.eqb k i then GD u f0 f0 else d k). split.
    + intros k. destruct (Nat.eqb k i); [cbn [gd_x gd_y]; split; reflexivity|apply N].
    + cbn [gaussian_from]. rewrite (gaussian_ext rate amount (fun k => if Nat.eqb k i then GD u f0 f0 else d k) d (S i) rest), D.
      * rewrite Nat.eqb_refl. cbn [gd_pick gd_x gd_y]. rewrite Eu. reflexivity.
      * intros k Hk. destruct (Nat.eqb_spec k i); [lia|reflexivity].
Qed.
(** It never panics. *)
Theorem C73_mutate_some fuel rate amount pts : (forall g, norm_float64 next float32 log exp fuel g <> Running) -> forall i g, gaussian_gen next float32 log exp fuel rate amount i pts g <> None.
Proof.
  intros Hf. induction pts as [|old rest IH]; intros i g; cbn [gaussian_gen]; [discriminate|]. destruct (float32 g) as [u g1]. destruct (f32lt u rate).
  - destruct (norm_float64 next float32 log exp fuel g1) as [| |x g2] eqn:Ex; [destruct (C56_no_panic next float32 log exp fuel g1 Ex)|destruct (Hf _ Ex)|].
    destruct (norm_float64 next float32 log exp fuel g2) as [| |y g3] eqn:Ey; [destruct (C56_no_panic next float32 log exp fuel g2 Ey)|destruct (Hf _ Ey)|].
    specialize (IH (S i) g3). destruct (gaussian_gen _ _ _ _ _ _ _ (S i) rest g3) as [[[r m] g4]|]; [discriminate|congruence].
  - specialize (IH (S i) g1). destruct (gaussian_gen _ _ _ _ _ _ _ (S i) rest g1) as [[[r m] g4]|]; [discriminate|congruence].
Qed.
End Gen.
Print Assumptions C73_mutate.
Print Assumptions C73_mutate_some.

(** With draws that are no NaNs, infinite ones included, the default mutator keeps every point
    in the unit square. *)
Lemma fmul_amount x : is_nan x = false -> is_nan (fmul x default_gaussian_amount) = false.
Proof.
  intros H. destruct (is_finite x) eqn:F; [apply fmul_not_nan; [exact F|reflexivity]|]. destruct x as [|s| |]; try discriminate. vm_compute. destruct s; reflexivity.
Qed.
Theorem C73_mutator num d : number_draws d -> mutator_ok (default_mutator num d).
Proof.
  intros N i pts U. unfold default_mutator, gaussian_mutate. rewrite gaussian_mut. split; [apply mut_from_exact|]. apply mut_from_inv; [|exact U].
  intros k p _ Hp. destruct (N i k) as [A B]. apply move_unit; [exact Hp| |]; apply fmul_half_not_nan, fmul_amount; assumption.
Qed.
Print Assumptions C73_mutator.

(** * Schedules *)
Lemma finished_valid n s : finished n s -> valid_schedule n s.
Proof. intros (k & st & C & F & <-). exact (proj2 (proj2 (proj2 (proj2 (proj2 (C35_all_received n n k st C F)))))). Qed.
(** Every scheduling of the goroutines ends, so there are such orders of events. *)
Lemma finish_from n m : (n <> 0)%nat -> forall k st, csteps n n k st -> (4 * n + 2 < k + m)%nat -> exists s, finished n s.
Proof.
  intros Hn. induction m as [|m IH]; intros k st C L; [pose proof (C35_terminates n n k st C); lia|].
  destruct (phase st) eqn:E.
  1, 2: destruct (C35_progress n n k st Hn (le_n _) C ltac:(congruence)) as (st' & St); apply (IH (S k) st'); [econstructor; eassumption|lia].
  exists (trace st), k, st. auto.
Qed.
Theorem C73_schedule : exists s, finished default_size s.
Proof.
  assert (N : default_size <> 0%nat) by (unfold default_size; lia). revert N. generalize default_size. intros n N. apply (finish_from n (4 * n + 3) N 0 cstart); [constructor|lia].
Qed.
Print Assumptions C73_schedule.

(** * The run *)
Lemma groups_ok num rnd : unit_pairs rnd -> point_groups default_size (Z.to_nat num) (default_groups num rnd).
Proof.
  intros U. unfold default_groups. generalize default_size. intros n. split; [rewrite map_length, seq_length; reflexivity|]. apply Forall_forall. intros g I. apply in_map_iff in I as (k & <- & _).
  unfold random_generate, random_points. split; [rewrite map_length, seq_length; reflexivity|]. apply Forall_forall. intros p J. apply in_map_iff in J as (i & <- & _).
  destruct (U k i) as [[F1 [A1 B1]] [F2 [A2 B2]]]. split; (split; [assumption|]); cbn [nx ny]; lra.
Qed.
Lemma default_function fuel image : usual_image image -> 2 ^ 56 <= Z.of_nat fuel ->
  exists d fi, to_data image = Some d /\ new_fimg fuel (as_idata d) default_block = Some fi /\ image_function (as_idata d) default_block fi /\ fi_w fi = g_maxx image /\ fi_h fi = g_maxy image.
Proof.
  intros (Hc & Hx & Hy) Hf. destruct (to_data_spec image ltac:(lia) ltac:(lia) Hc) as (d & E & W & H & _).
  pose proof (good_to_data image d ltac:(lia) ltac:(lia) Hc E) as G. assert (W' : i_w (as_idata d) = g_maxx image) by exact W. assert (H' : i_h (as_idata d) = g_maxy image) by exact H.
  unfold default_block. destruct (image_fn fuel (as_idata d) 5 G ltac:(lia) ltac:(lia) ltac:(lia)) as (fi & F). exists d, fi. split; [exact E|]. split; [exact F|].
  assert (I : image_function (as_idata d) 5 fi).
  { split; [exact G|]. rewrite W', H'. split; [unfold usual_size; lia|]. repeat (split; [lia|]). exists fuel. auto. }
  split; [exact I|]. rewrite <- W', <- H'. exact (im_size (as_idata d) 5 fi I).
Qed.
Lemma default_is fuel srt num image rnd s sw d fi : to_data image = Some d -> new_fimg fuel (as_idata d) default_block = Some fi ->
  default_algorithm fuel srt num image rnd s sw = option_map (pair fi) (new_simple (parallel fi srt) (default_groups num rnd) (new_parallel default_size default_pow2) s sw).
Proof. intros E F. unfold default_algorithm. rewrite E, F. reflexivity. Qed.

Section Run.
Context (fuel : nat) (srt : point -> list point -> option (list point)) (num : Z) (image : goimage).
Hypothesis Him : usual_image image.
Hypothesis Hsrt : hull_sort srt.
Hypothesis Hnum : num <= 32765.
Hypothesis Hfuel : 2 ^ 56 <= Z.of_nat fuel.
Notation run := (default_run fuel srt num image).
Notation l := (Z.to_nat num).
Lemma Hl : Z.of_nat l <= 32765. Proof. lia. Qed.
Lemma size_pos : (0 < default_size)%nat. Proof. unfold default_size. lia. Qed.
Lemma cut_ok : default_cutoff <> 0%nat /\ (default_cutoff <= default_size)%nat. Proof. unfold default_cutoff, default_size. lia. Qed.
Lemma pow_ok : (1 <= default_pow2 <= 62)%nat. Proof. unfold default_pow2. lia. Qed.

(** The program of C60 with the numbers of utils/default.go. *)
Lemma default_program fi c : run fi c -> simple_program fi srt default_cutoff default_size l default_pow2 c /\
  exists d, to_data image = Some d /\ image_function (as_idata d) default_block fi /\ fi_w fi = g_maxx image /\ fi_h fi = g_maxy image.
Proof.
  induction 1 as [rnd s sw c r U V E So|d s sw c c' r R [IH J] N V E So].
  - destruct (default_function fuel image Him Hfuel) as (d & fi' & Ed & Ef & I & W & H). rewrite (default_is fuel srt num image rnd s sw d fi' Ed Ef) in E.
    destruct (new_simple _ _ _ _ _) as [[c0 r0]|] eqn:EN; [|discriminate]. cbn [option_map] in E. injection E as <- <- <-. split; [|exists d; auto].
    eapply sp_new; [apply groups_ok, U|apply finished_valid, V|exact EN|exact So].
  - split; [|exact J]. eapply sp_step; [exact IH|apply C73_mutator, N|apply finished_valid, V|exact E|exact So].
Qed.
(** DefaultAlgorithm returns. *)
Theorem C73_new rnd s sw : unit_pairs rnd -> finished default_size s -> swaps_within default_size sw ->
  exists fi c r, default_algorithm fuel srt num image rnd s sw = Some (fi, (c, r)).
Proof.
  intros U V W. destruct (default_function fuel image Him Hfuel) as (d & fi & Ed & Ef & I & _). rewrite (default_is fuel srt num image rnd s sw d fi Ed Ef).
  destruct (C60_new_simple (as_idata d) default_block fi srt default_size l default_pow2 (default_groups num rnd) s sw I Hsrt Hl pow_ok size_pos (groups_ok num rnd U) (finished_valid _ _ V) W) as (c & r & E).
  rewrite E. exists fi, c, r. reflexivity.
Qed.
(** So does every Step, however long the run was. *)
Theorem C73_step fi c d s sw : run fi c -> number_draws d -> finished default_size s -> swaps_within default_size sw ->
  exists c' r, default_step srt num fi d s sw c = Some (c', r).
Proof.
  intros R N V W. destruct (default_program fi c R) as (P & dd & _ & I & _). destruct cut_ok as [C1 C2].
  exact (C60_simple_step (as_idata dd) default_block fi srt default_cutoff default_size l default_pow2 c (default_mutator num d) s sw I Hsrt Hl C1 C2 pow_ok size_pos P (C73_mutator num d N) (finished_valid _ _ V) W).
Qed.
(** Some swaps sort, so that runs of any length exist. *)
Theorem C73_runs : (exists fi c, run fi c) /\
  forall fi c d s, run fi c -> number_draws d -> finished default_size s ->
    exists sw c' r, swaps_within default_size sw /\ default_step srt num fi d s sw c = Some (c', r) /\ run fi c'.
Proof.
  destruct cut_ok as [C1 C2]. split.
  - destruct C73_schedule as (s & V). set (rnd := fun _ _ : nat => (f0, f0)). assert (U : unit_pairs rnd).
    { intros k i. assert (D : draw01 f0) by (split; [reflexivity|]; pose proof f0_R as H; cbv beta in *; rewrite H; lra). split; exact D. }
    destruct (default_function fuel image Him Hfuel) as (d & fi & Ed & Ef & I & _).
    destruct (new_sorts (as_idata d) default_block fi srt default_cutoff default_size l default_pow2 I Hsrt Hl C1 pow_ok (default_groups num rnd) s size_pos (groups_ok num rnd U) (finished_valid _ _ V)) as (sw & c & r & _ & E & So).
    exists fi, c. apply (dr_new fuel srt num image fi rnd s sw c r U V); [|intros _; exact So]. rewrite (default_is fuel srt num image rnd s sw d fi Ed Ef), E. reflexivity.
  - intros fi c d s R N V. destruct (default_program fi c R) as (P & dd & _ & I & _).
    destruct (C60_simple_sorts (as_idata dd) default_block fi srt default_cutoff default_size l default_pow2 c (default_mutator num d) s I Hsrt Hl C1 C2 pow_ok size_pos P (C73_mutator num d N) (finished_valid _ _ V)) as (_ & sw & c' & r & W & E & So & _).
    exists sw, c', r. split; [exact W|]. split; [exact E|]. eapply dr_step; [exact R|exact N|exact V|exact E|intros _; exact So].
Qed.
(** Best always has as many points as asked for, in the unit square, and its fitness is that of a
    Delaunay triangulation of them, a number not below that of any member. *)
Theorem C73_best fi c : run fi c -> let pts := buf c (best_slice c) in
  length pts = l /\ Forall pt_in_unit pts /\ is_finite (stats_best c) = true /\ (forall f, In f (c_fits c) -> not_above f (stats_best c)) /\
  fi_w fi = g_maxx image /\ fi_h fi = g_maxy image /\
  exists t, delaunay_triangulation (g_maxx image) (g_maxy image) (map (mut_point fi) pts) t /\ plain_fitness fi t = Some (stats_best c).
Proof.
  intros R. destruct (default_program fi c R) as (P & d & _ & I & W & H). destruct cut_ok as [C1 C2]. pose proof size_pos as Hn.
  pose proof (program_inv (as_idata d) default_block fi srt default_cutoff default_size l default_pow2 I Hsrt Hl C1 pow_ok c P) as V.
  destruct (simple_evaluated _ default_cutoff default_size l _ C1 (pi_hist _ _ _ _ _ _ _ V)) as (_ & B0 & B1 & So & _).
  change (nth (c_best c) (c_store c) [] = nth 0 (members c) []) in B0. change (c_bestfit c = nth 0 (c_fits c) f0) in B1. change (sorted (c_fits c)) in So.
  destruct (P_Algo.C30_simple_shape _ default_cutoff default_size l _ C1 (pi_hist _ _ _ _ _ _ _ V)) as (L & G & _).
  change (length (members c) = default_size) in L. change (forall g, In g (members c) -> length g = l /\ Forall pt_in_unit g) in G.
  pose proof (pi_len _ _ _ _ _ _ _ V) as Le. pose proof (pi_fin _ _ _ _ _ _ _ V) as Fi.
  unfold best_slice, buf, stats_best. cbv zeta. rewrite B0, B1. assert (M : In (nth 0 (members c) []) (members c)) by (apply nth_In; rewrite L; exact Hn).
  destruct (G _ M) as [G1 G2]. split; [exact G1|]. split; [exact G2|]. split; [rewrite Forall_forall in Fi; apply Fi, nth_In; rewrite Le; exact Hn|].
  split; [intros f Hf; apply head_above; [exact So|exact Hf|apply finites_num, Fi]|]. split; [exact W|]. split; [exact H|].
  destruct (C59_simple (as_idata d) default_block fi srt default_cutoff default_size l default_pow2 c I Hsrt Hl C1 pow_ok P 0%nat Hn) as (id & t & q & _ & _ & _ & D & Pf).
  exists q. rewrite <- W, <- H. split; [exact D|exact Pf].
Qed.
(** The two caches keep their 2^22 entries, whatever happens. *)
Theorem C73_cache fi c : run fi c -> length (p_arrs (c_ev c)) = 2%nat /\ forall a, In a (p_arrs (c_ev c)) -> Z.of_nat (length a) = 4194304.
Proof.
  intros R. destruct (default_program fi c R) as (P & d & _ & I & _). destruct cut_ok as [C1 _].
  destruct (pi_live _ _ _ _ _ _ _ (program_inv (as_idata d) default_block fi srt default_cutoff default_size l default_pow2 I Hsrt Hl C1 pow_ok c P)) as [_ (D & T & _)].
  split; [exact (tn_two _ _ _ T)|]. intros a Ha. rewrite (proj1 (tn_arr _ _ _ T a Ha)), Nat2Z.inj_pow. reflexivity.
Qed.
(** It never gets worse. *)
Theorem C73_monotone fi c d s sw c' r : run fi c -> number_draws d -> finished default_size s -> default_step srt num fi d s sw c = Some (c', r) -> sort_sorts (c_fits c') ->
  not_above (stats_best c) (stats_best c').
Proof.
  intros R N V E So. destruct (default_program fi c R) as (P & dd & _ & I & _). destruct cut_ok as [C1 C2].
  exact (proj1 (proj2 (proj2 (C60_simple_best (as_idata dd) default_block fi srt default_cutoff default_size l default_pow2 c (default_mutator num d) s sw c' r I Hsrt Hl C1 C2 pow_ok size_pos P (C73_mutator num d N) (finished_valid _ _ V) E So)))).
Qed.
(** Best can be drawn on the image with any result of the Delaunay package. *)
Theorem C73_picture fi c d del ix : run fi c -> to_data image = Some d -> let pts := buf c (best_slice c) in
  del (draw_group pts (g_maxx image) (g_maxy image)) = Some ix -> index_list l ix ->
  exists ts out, triangulate del pts (g_maxx image) (g_maxy image) = Some ts /\ triangles_on_image ts (as_idata d) = Some out /\
    length out = (length ix / 3)%nat /\ Forall (fun t => rgb_unit (td_color t)) out.
Proof.
  intros R Ed pts E X. destruct (C73_best fi c R) as (L & U & _). fold pts in L, U. destruct Him as (Hc & Hx & Hy).
  destruct (to_data_spec image ltac:(lia) ltac:(lia) Hc) as (d' & E' & W & H & _). rewrite Ed in E'. injection E' as <-.
  pose proof (good_to_data image d ltac:(lia) ltac:(lia) Hc Ed) as G. assert (W' : i_w (as_idata d) = g_maxx image) by exact W. assert (H' : i_h (as_idata d) = g_maxy image) by exact H.
  rewrite <- L in X. rewrite <- W', <- H' in *. apply (C72_renders del pts (as_idata d) ix G); try assumption; rewrite ?W', ?H'; lia.
Qed.
End Run.
Print Assumptions C73_new.
Print Assumptions C73_step.
Print Assumptions C73_runs.
Print Assumptions C73_best.
Print Assumptions C73_cache.
Print Assumptions C73_monotone.
Print Assumptions C73_picture.

(** Images with fewer than 4 rows, or fewer than 4 columns and more than 4 rows, make
    DefaultAlgorithm panic: newPixelDataN makes a slice of negative length. *)
Theorem C73_small_refuted fuel srt num image rnd s sw : g_maxy image < 4 \/ (g_maxx image < 4 /\ 4 < g_maxy image) -> default_algorithm fuel srt num image rnd s sw = None.
Proof.
  intros S. unfold default_algorithm. destruct (to_data image) as [d|] eqn:E; [|reflexivity]. unfold new_fimg. destruct (from_image (as_idata d)); [|reflexivity].
  assert (W : i_w (as_idata d) = g_maxx image /\ i_h (as_idata d) = g_maxy image).
  { unfold to_data in E. destruct (_ || _); [discriminate|]. injection E as <-. split; reflexivity. }
  destruct W as [W H]. unfold from_imageN, default_block. rewrite W, H.
  replace ((g_maxy image - 5 + 1 <? 0) || ((0 <? g_maxy image - 5 + 1) && (g_maxx image - 5 + 1 <? 0))) with true; [reflexivity|].
  symmetry. destruct S as [S|[S1 S2]].
  - apply orb_true_iff. left. apply Z.ltb_lt. lia.
  - apply orb_true_iff. right. apply andb_true_iff. split; apply Z.ltb_lt; lia.
Qed.
Print Assumptions C73_small_refuted.

(** A concrete image; the mutator moves points of members. *)
Lemma waves_usual : usual_image waves.
Proof. split; [exact waves_conforming|]. cbn. lia. Qed.
Example C73_case : exists fi c0 c1 r, default_run (Z.to_nat (2 ^ 56)) insertion_sort 20 waves fi c0 /\ default_run (Z.to_nat (2 ^ 56)) insertion_sort 20 waves fi c1 /\
  (exists s sw, default_step insertion_sort 20 fi (fun i k => GD (f32_dy 1 (-4)) (f64_of_Z 2) (B754_infinity true)) s sw c0 = Some (c1, r)) /\
  default_mutator 20 (fun i k => GD (if Nat.even (i + k) then f32_dy 1 (-4) else f32_dy 1 (-1)) (f64_of_Z 2) (B754_infinity true)) 1%nat [NP f0 f1; NP fhalf f1] =
    ([NP f0 f1; NP (fadd fhalf (fmul (fmul (f64_of_Z 2) default_gaussian_amount) fhalf)) f0], [Mut (NP fhalf f1) (NP (fadd fhalf (fmul (fmul (f64_of_Z 2) default_gaussian_amount) fhalf)) f0) 1%nat]).
Proof.
  assert (N : number_draws (fun i k => GD (f32_dy 1 (-4)) (f64_of_Z 2) (B754_infinity true))) by (intros i k; split; reflexivity).
  destruct C73_schedule as (s & V). assert (F : 2 ^ 56 <= Z.of_nat (Z.to_nat (2 ^ 56))) by (rewrite Z2Nat.id; lia).
  revert F. generalize (Z.to_nat (2 ^ 56)). intros fuel F.
  destruct (C73_runs fuel insertion_sort 20 waves waves_usual insertion_hull_sort ltac:(lia) F) as ((fi & c0 & R0) & A).
  destruct (A fi c0 _ s R0 N V) as (sw & c1 & r & _ & E & R1). exists fi, c0, c1, r. split; [exact R0|]. split; [exact R1|]. split; [exists s, sw; exact E|]. reflexivity.
Qed.
