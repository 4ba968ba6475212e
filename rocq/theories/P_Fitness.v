(** Theorems on the triangle fitness function and the parallel evaluator: C24, C25, C26, C27, C29. *)
From Coq Require Import ZArith Reals List Bool Arith Lia Lra Permutation.
From Flocq Require Import Core IEEE754.BinarySingleNaN.
From Verif Require Import GoNum FloatLemmas M_Norm S_Norm M_Slice M_Geom S_Geom M_Image S_Image L_Image M_Raster S_Raster L_Raster1 L_Raster2
  M_Render L_Render M_Delaunay S_Delaunay L_Hist L_Reach L_Lookup L_Tiles P_Delaunay M_Algo M_Fitness S_Fitness L_Fit L_Fit2 L_Fit3 L_Sums L_Var.
Import ListNotations.
Open Scope Z_scope.

(** * C24 *)

(** Whatever operations are performed on the parallel evaluator in whatever order, the
    fitnesses returned are those of an evaluator without any cache. *)
Theorem C24_cache_transparent : forall im srt n k ops p fs,
  eop_run (parallel im srt) (new_parallel n k) ops = Some (p, fs) ->
  exists b, eop_run (bare_ev im srt) (new_bare n) ops = Some (b, fs).
Proof.
  intros im srt n k ops p fs H. destruct (new_parallel_ok im n k) as [O S]. exists (strip p). unfold eop_run in *. rewrite <- S.
  apply (par_run_sim im srt ops _ _ _ _ O H).
Qed.
Print Assumptions C24_cache_transparent.

(** Conversely, if Calculate and Update alternate on every function, the caches add no
    panic of their own. *)
Theorem C24_cache_no_panic : forall im srt n k ops b fs, (1 <= k <= 62)%nat -> alternating (repeat false n) ops ->
  eop_run (bare_ev im srt) (new_bare n) ops = Some (b, fs) ->
  exists p, eop_run (parallel im srt) (new_parallel n k) ops = Some (p, fs).
Proof.
  intros im srt n k ops b fs Hk HA H. destruct (new_parallel_ok im n k) as [O S]. unfold eop_run in *.
  assert (N : 2 <= Z.of_nat (2 ^ k) < 2 ^ 63).
  { rewrite Nat2Z.inj_pow. change (Z.of_nat 2) with 2. split; [change 2 with (2 ^ 1) at 1; apply Z.pow_le_mono_r; lia|apply Z.pow_lt_mono_r; lia]. }
  assert (A : alternating (map (fun _ => false) (p_order (new_parallel n k))) ops).
  { cbn [new_parallel p_order]. replace (map (fun _ : nat => false) (seq 0 n)) with (repeat false n); [exact HA|].
    clear. generalize 0%nat. induction n as [|n IH]; intros s; [reflexivity|]. cbn [repeat seq map]. now rewrite <- IH. }
  rewrite <- S in H. pose proof (par_run_turn im srt _ ops N (new_parallel n k) [] (fun _ => false) (b, fs) O (new_turn_ok n k) A H) as T.
  destruct (foldM (eop_step (parallel im srt)) ops (new_parallel n k, [])) as [[p fs']|] eqn:E; [|congruence].
  destruct (par_run_sim im srt ops _ _ _ _ O E) as [_ E2]. rewrite H in E2. injection E2 as _ <-. now exists p.
Qed.
Print Assumptions C24_cache_no_panic.

(** * C27 *)

(** A second Calculate of a function without a SetBase in between gives the same
    fitness, wherever the function has been swapped to and whatever happened meanwhile
    to the caches and to the other functions. *)
Theorem C27_same_fitness : forall im srt n k ops1 i pts muts ops2 j pts' muts' p fs,
  eop_run (parallel im srt) (new_parallel n k) (ops1 ++ OCalc i pts muts :: ops2 ++ [OCalc j pts' muts']) = Some (p, fs) ->
  untouched i ops2 = Some j ->
  exists A f B, fs = A ++ f :: B ++ [f] /\ length A = calcs ops1 /\ length B = calcs ops2.
Proof.
  intros im srt n k ops1 i pts muts ops2 j pts' muts' p fs H U. destruct (C24_cache_transparent _ _ _ _ _ _ _ H) as (b & Hb).
  exact (bare_same_fitness im srt n ops1 i pts muts ops2 j pts' muts' b fs Hb U).
Qed.
Print Assumptions C27_same_fitness.

(** * C29 *)
Theorem C29_in_range : forall len hash, 0 < len < 2 ^ 63 -> 0 <= cache_index len hash < len.
Proof. exact cache_index_range. Qed.
Print Assumptions C29_in_range.
Theorem C29_modulo : forall k hash, 0 <= k <= 32 -> cache_index (2 ^ k) hash = hash mod 2 ^ k.
Proof.
  intros k hash H. assert (2 ^ 0 <= 2 ^ k <= 2 ^ 32) by (split; apply Z.pow_le_mono_r; lia). change (2 ^ 0) with 1 in *. change (2 ^ 32) with 4294967296 in *.
  unfold cache_index. rewrite (u64_small (2 ^ k)) by lia. rewrite u64_small by lia.
  replace (2 ^ k - 1) with (Z.ones k) by (rewrite Z.ones_equiv; lia). rewrite Z.land_ones by lia.
  pose proof (Z.mod_pos_bound hash (2 ^ k) ltac:(lia)). unfold u32, wrapu. apply Z.mod_small. lia.
Qed.
Print Assumptions C29_modulo.
(** Triangles equal in the sense of Equals have the same hash. *)
Theorem C29_equal_hash : forall e a b c, entry_eq e a b c = true -> tri_hash (e_p e) (e_q e) (e_s e) = tri_hash a b c.
Proof.
  intros e a b c. unfold entry_eq. rewrite !andb_true_iff. intros [[H1 H2] H3]. unfold peq in *. rewrite andb_true_iff, !Z.eqb_eq in *.
  unfold tri_hash. destruct H1 as [-> ->], H2 as [-> ->], H3 as [-> ->]. reflexivity.
Qed.
Print Assumptions C29_equal_hash.
(** With an empty cache the first triangle panics. *)
Theorem C29_empty_panics : forall im alias d t r, iter_triangles d = t :: r -> calc_tri im alias [] d = None.
Proof.
  intros im alias d t r E. unfold calc_tri. rewrite E. cbn [foldM]. unfold tri_step at 1. cbn [l_tris length].
  assert (Z : znth (@nil (option entry)) (cache_index (Z.of_nat 0) (tri_hash (d_a t) (d_b t) (d_c t))) = None).
  { unfold znth. destruct (_ <? 0); [reflexivity|]. destruct (Z.to_nat _); reflexivity. }
  cbn [l_tris]. rewrite Z. reflexivity.
Qed.
Print Assumptions C29_empty_panics.

(** * C25 *)

(** The score of a triangle of the image is calculated from exactly the pixels
    DDATriangle reports, ... *)
Theorem C25_exact_pixels : forall im fi bs fuel a b c, good_image im -> i_w im <= 32767 -> i_h im <= 32767 ->
  1 <= bs <= 16 -> bs <= i_w im + 1 -> bs <= i_h im + 1 -> new_fimg fuel im bs = Some fi -> image_tri im (Tri a b c) ->
  (forall v, tri_diff fi a b c = Some v -> v = diff_of (pixel_sums im (dda_pixels (Tri a b c)))) /\
  (2 ^ 56 <= Z.of_nat fuel -> tri_diff fi a b c = Some (diff_of (pixel_sums im (dda_pixels (Tri a b c))))).
Proof.
  intros im fi bs fuel a b c G Hw Hh Hbs Hbw Hbh E T.
  assert (K : forall v, tri_diff fi a b c = Some v -> v = diff_of (pixel_sums im (dda_pixels (Tri a b c)))) by (intros v; exact (tri_diff_sums im fi bs fuel G Hw Hh Hbs Hbw Hbh E a b c v T)).
  split; [exact K|]. intros Hf. pose proof (tri_diff_total im fi bs fuel G Hw Hh Hbs Hbw Hbh E a b c T Hf) as N.
  destruct (tri_diff fi a b c) as [v|] eqn:Ev; [|congruence]. f_equal. apply K. reflexivity.
Qed.
Print Assumptions C25_exact_pixels.

(** ... so the block size does not matter. *)
Definition image_tris (im : idata) (d : delaunay) : Prop := forall t, In t (iter_triangles d) -> image_tri im (Tri (d_a t) (d_b t) (d_c t)).
Lemma plain_sums_ext fi1 fi2 ts : (forall t, In t ts -> tri_diff fi1 (d_a t) (d_b t) (d_c t) = tri_diff fi2 (d_a t) (d_b t) (d_c t)) -> plain_sums fi1 ts = plain_sums fi2 ts.
Proof.
  unfold plain_sums. generalize (f0, f0). induction ts as [|t ts IH]; intros da H; [reflexivity|]. cbn [foldM]. rewrite (H t (or_introl eq_refl)).
  destruct (tri_diff fi2 _ _ _); [|reflexivity]. apply IH. intros u Hu. apply H. right. exact Hu.
Qed.
Lemma new_fimg_fields fuel im bs fi : new_fimg fuel im bs = Some fi -> fi_w fi = i_w im /\ fi_h fi = i_h im /\ fi_max fi = f64_of_Z (i64 (i64 (max_pixel_difference * i_w im) * i_h im)).
Proof. unfold new_fimg. destruct (from_image im), (from_imageN im bs); try discriminate. intros [= <-]. auto. Qed.
Theorem C25_block_size : forall im fuel bs1 fi1 bs2 fi2 d, good_image im -> i_w im <= 32767 -> i_h im <= 32767 -> 2 ^ 56 <= Z.of_nat fuel ->
  1 <= bs1 <= 16 -> bs1 <= i_w im + 1 -> bs1 <= i_h im + 1 -> new_fimg fuel im bs1 = Some fi1 ->
  1 <= bs2 <= 16 -> bs2 <= i_w im + 1 -> bs2 <= i_h im + 1 -> new_fimg fuel im bs2 = Some fi2 ->
  image_tris im d -> plain_fitness fi1 d = plain_fitness fi2 d.
Proof.
  intros im fuel bs1 fi1 bs2 fi2 d G Hw Hh Hf A1 A2 A3 E1 B1 B2 B3 E2 HT. unfold plain_fitness.
  rewrite (plain_sums_ext fi1 fi2). 2:{ intros t Ht. specialize (HT t Ht).
    rewrite (proj2 (C25_exact_pixels im fi1 bs1 fuel _ _ _ G Hw Hh A1 A2 A3 E1 HT) Hf), (proj2 (C25_exact_pixels im fi2 bs2 fuel _ _ _ G Hw Hh B1 B2 B3 E2 HT) Hf). reflexivity. }
  destruct (new_fimg_fields _ _ _ _ E1) as (-> & -> & ->), (new_fimg_fields _ _ _ _ E2) as (-> & -> & ->). reflexivity.
Qed.
Print Assumptions C25_block_size.

(** The triangles the fitness function of an image sees after insertions of points of
    the image are triangles of the image. *)
Theorem C25_history_tris : forall im ps d, good_history (i_w im) (i_h im) ps -> inserts (i_w im) (i_h im) ps = Some d -> image_tris im d.
Proof.
  intros im ps d H E t Ht. split.
  - assert (U : In t (used d)) by (unfold iter_triangles in Ht; unfold used; apply filter_In in Ht as [I F]; apply filter_In; split; [exact I|]; apply andb_true_iff in F; apply F).
    pose proof (C46_nondegenerate _ _ _ _ H E t U) as N. unfold tarea, area2, orient in *. cbn [ta tb tc]. lia.
  - intros p Hp. destruct (C47_visible _ _ _ _ H E) as [V _]. destruct (V t Ht) as (V1 & V2 & V3). destruct H as (_ & F & _). rewrite Forall_forall in F.
    cbn [verts ta tb tc In] in Hp. destruct Hp as [<-|[<-|[<-|[]]]]; apply F; assumption.
Qed.
Print Assumptions C25_history_tris.

(** * C26 *)

(** With exact squares the sums would satisfy the inequality that makes the variance
    non-negative, for any pixels. *)
Theorem C26_exact_squares : forall im l, let s := pixel_sums im l in
  s_r s * s_r s + s_g s * s_g s + s_b s * s_b s <=
  s_n s * sum_over (fun p => let q := stored im p in p_r q * p_r q + p_g q * p_g q + p_b q * p_b q) l.
Proof. exact squares_exact. Qed.
Print Assumptions C26_exact_squares.

Lemma pixel_sums_range im l : good_image im -> Forall (inside im) l -> let s := pixel_sums im l in
  0 <= s_r s <= 255 * s_n s /\ 0 <= s_g s <= 255 * s_n s /\ 0 <= s_b s <= 255 * s_n s /\ 0 <= s_sq s <= 195075 * s_n s.
Proof.
  intros G F. cbv zeta. 
  assert (K : forall f c, (forall p, inside im p -> 0 <= f p <= c) -> 0 <= sum_over f l <= c * Z.of_nat (length l)).
  { intros f c H. rewrite <- (sum_over_const c l). split.
    - replace 0 with (sum_over (fun _ : Z * Z => 0) l) at 1 by (rewrite sum_over_const; lia). apply sum_over_le. intros p Hp. rewrite Forall_forall in F. apply H, F, Hp.
    - apply sum_over_le. intros p Hp. rewrite Forall_forall in F. apply H, F, Hp. }
  assert (R : forall p, inside im p -> let q := stored im p in (0 <= p_r q <= 255 /\ 0 <= p_g q <= 255 /\ 0 <= p_b q <= 255) /\ 0 <= p_sq q <= 195075).
  { intros [x y] [Hx Hy]. cbn [fst snd] in *. cbv zeta. unfold stored. cbn [fst snd]. destruct G as (_ & _ & G). destruct (G x y Hx Hy) as (c & -> & U).
    pose proof (to_pixel_range c U) as K'. cbv zeta in K'. tauto. }
  cbn [pixel_sums s_r s_g s_b s_sq s_n]. cbv zeta in R. split; [|split; [|split]]; apply K; intros p Hp; apply (R p Hp).
Qed.

(** The score of a triangle lies between minus the number of its pixels (less one, for
    the rounding of sums above 2^53) and 195075 times their number. *)
Theorem C26_score_bounds : forall gi d fi bs fuel a b c v, 0 <= g_maxx gi <= 32767 -> 0 <= g_maxy gi <= 32767 -> conforming gi -> to_data gi = Some d ->
  1 <= bs <= 16 -> bs <= g_maxx gi + 1 -> bs <= g_maxy gi + 1 -> new_fimg fuel (as_idata d) bs = Some fi -> image_tri (as_idata d) (Tri a b c) ->
  tri_diff fi a b c = Some v -> let n := Z.of_nat (length (dda_pixels (Tri a b c))) in n <= 6876000 ->
  is_finite v = true /\ (n = 0 -> v = f0) /\ (0 < n -> (IZR (- (n + 1)) <= R64 v <= IZR (195075 * n))%R).
Proof.
  intros gi d fi bs fuel a b c v Hx Hy Hc Hd Hbs Hbw Hbh E T Ev n Hn.
  assert (G : good_image (as_idata d)) by (apply (good_to_data gi d); try assumption; lia).
  destruct (to_data_spec gi ltac:(lia) ltac:(lia) Hc) as (d' & Ed & Ew & Eh & _). rewrite Hd in Ed. injection Ed as <-.
  assert (Ev' : v = diff_of (pixel_sums (as_idata d) (dda_pixels (Tri a b c)))).
  { apply (C25_exact_pixels (as_idata d) fi bs fuel a b c); try assumption; cbn [as_idata i_w i_h]; rewrite ?Ew, ?Eh; lia. }
  assert (F : Forall (inside (as_idata d)) (dda_pixels (Tri a b c))).
  { apply tri_pixels_inside; cbn [as_idata i_w i_h]; try lia. apply Forall_forall. intros p Hp. destruct T as [_ T]. exact (T p Hp). }
  destruct (pixel_sums_range _ _ G F) as (Q1 & Q2 & Q3 & Q4). pose proof (squares_stored gi d _ ltac:(lia) ltac:(lia) Hc Hd F) as Q5. cbv zeta in Q5.
  assert (En : s_n (pixel_sums (as_idata d) (dda_pixels (Tri a b c))) = n) by reflexivity.
  rewrite Ev'. clear Ev Ev'. revert Q1 Q2 Q3 Q4 Q5 En. generalize (pixel_sums (as_idata d) (dda_pixels (Tri a b c))). intros s Q1 Q2 Q3 Q4 Q5 En.
  assert (N0 : 0 <= n) by (unfold n; lia). clearbody n. subst n.
  destruct (Z.eq_dec (s_n s) 0) as [Z0|Z0].
  - unfold diff_of. rewrite Z0. cbn [Z.eqb]. split; [reflexivity|]. split; [reflexivity|lia].
  - destruct (diff_lower s) as [B1 B2]; try lia. split; [exact B1|]. split; [lia|]. intros _. split; [apply B2|]. eapply Rle_trans; [apply B2|]. apply IZR_le. lia.
Qed.
Print Assumptions C26_score_bounds.

Lemma filter_len {A} (f : A -> bool) l : (length (filter f l) <= length l)%nat.
Proof. induction l as [|a l IH]; cbn [filter length]; [lia|]. destruct (f a); cbn [length]; lia. Qed.

(** The fitness is always a number, for every image and triangulation (overflow of the
    integer sums included). *)
Theorem C26_fitness_finite : forall im fuel bs fi d f, good_image im -> 1 <= i_w im <= 32767 -> 1 <= i_h im <= 32767 -> new_fimg fuel im bs = Some fi ->
  Z.of_nat (length (d_tris d)) < 2 ^ 52 -> plain_fitness fi d = Some f -> is_finite f = true.
Proof.
  intros im fuel bs fi d f G Hw Hh E Hl. destruct (new_fimg_fields _ _ _ _ E) as (_ & _ & M).
  unfold max_pixel_difference in M. rewrite (i64_small (195075 * i_w im)) in M by lia. rewrite (i64_small (195075 * i_w im * i_h im)) in M by nia.
  destruct (of_Z_R (195075 * i_w im * i_h im)) as [F R]; [nia|].
  apply plain_fitness_finite.
  - unfold iter_triangles. pose proof (filter_len (fun t => negb (is_freed t) && negb (touches_super d t)) (d_tris d)). lia.
  - rewrite M. exact F.
  - rewrite M, R. rewrite Rabs_right; [apply IZR_le; nia|apply Rle_ge, IZR_le; nia].
Qed.
Print Assumptions C26_fitness_finite.

(** A triangle of one colour whose score is negative, and a fitness above 1: the
    image is 4x4 pixels of colour (7,0,0), whose square is stored as 48. *)
Definition red7 : goimage := GoImage 4 4 (fun _ _ => (7 * 257, 0, 0)).
Lemma red7_conforming : conforming red7.
Proof. intros x y. cbn. lia. Qed.
Definition red7_fi : option fimg := match to_data red7 with None => None | Some d => new_fimg 100 (as_idata d) 2 end.
Definition corners4 : list point := [Pt 0 0; Pt 4 0; Pt 4 4; Pt 0 4].
Theorem C26_fitness_above_one_refuted : conforming red7 /\ exists fi d f v,
  red7_fi = Some fi /\ inserts 4 4 corners4 = Some d /\ good_history 4 4 corners4 /\
  tri_diff fi (Pt 0 0) (Pt 4 0) (Pt 0 4) = Some v /\ flt v f0 = true /\
  plain_fitness fi d = Some f /\ flt f1 f = true.
Proof.
  split; [exact red7_conforming|].
  assert (H : match red7_fi, inserts 4 4 corners4 with Some fi, Some d =>
      match tri_diff fi (Pt 0 0) (Pt 4 0) (Pt 0 4), plain_fitness fi d with Some v, Some f => flt v f0 && flt f1 f | _, _ => false end | _, _ => false end = true)
    by (vm_compute; reflexivity).
  destruct red7_fi as [fi|]; [|discriminate]. destruct (inserts 4 4 corners4) as [d|]; [|discriminate].
  destruct (tri_diff fi _ _ _) as [v|] eqn:E1; [|discriminate]. destruct (plain_fitness fi d) as [f|] eqn:E2; [|discriminate]. apply andb_true_iff in H as [H1 H2].
  exists fi, d, f, v. repeat (split; [reflexivity||assumption|]). 
  split. { split; [unfold good_size; lia|]. split; [|split; [left; lia|cbn; lia]]. repeat constructor; cbn; lia. }
  repeat split; assumption.
Qed.
Print Assumptions C26_fitness_above_one_refuted.

(** For large triangles the squares of the sums overflow int64: on a white image,
    where every triangle has variance 0, this one gets a score above 10^12. *)
Definition white : idata := IData 4096 4096 (fun _ _ => Some (RGB f1 f1 f1)).
Definition big_tri : tri := Tri (Pt 0 0) (Pt 4096 0) (Pt 0 4096).
Lemma white_good : good_image white.
Proof. split; [cbn; lia|]. split; [cbn; lia|]. intros x y _ _. exists (RGB f1 f1 f1). split; [reflexivity|]. unfold rgb_unit. cbn [cr cg cb]. assert (in_unit f1) by (split; [reflexivity|]; fold (R64 f1); rewrite f1_R; lra). auto. Qed.
Lemma big_tri_image : image_tri white big_tri.
Proof. split; [cbn; lia|]. intros p Hp. cbn in Hp. destruct Hp as [<-|[<-|[<-|[]]]]; cbn; lia. Qed.
Lemma pixels_count t : (forall e, In e (dda_lines t) -> match e with Line x0 x1 _ => x0 <= x1 | Block _ _ => False end) ->
  Z.of_nat (length (dda_pixels t)) = fold_right (fun e s => match e with Line x0 x1 _ => x1 - x0 + s | Block _ _ => s end) 0 (dda_lines t).
Proof.
  unfold dda_pixels. induction (dda_lines t) as [|e l IH]; intros H; [reflexivity|]. cbn [flat_map fold_right]. rewrite app_length, Nat2Z.inj_add, IH by (intros e' He; apply H; right; exact He).
  pose proof (H e (or_introl eq_refl)) as K. destruct e as [x0 x1 y|x y]; [|contradiction]. unfold line_pixels. rewrite map_length, zfor_length. lia.
Qed.
Lemma big_tri_count : Z.of_nat (length (dda_pixels big_tri)) = 8390656.
Proof.
  rewrite pixels_count.
  - vm_compute. reflexivity.
  - apply Forall_forall. assert (H : forallb (fun e => match e with Line x0 x1 _ => x0 <=? x1 | Block _ _ => false end) (dda_lines big_tri) = true) by (vm_compute; reflexivity).
    rewrite forallb_forall in H. apply Forall_forall. intros e He. specialize (H e He). destruct e; [apply Z.leb_le, H|discriminate].
Qed.
Lemma white_stored p : stored white p = Px 255 255 255 195075.
Proof. vm_compute. reflexivity. Qed.
Lemma white_sums l : let n := Z.of_nat (length l) in pixel_sums white l = Sums n (255 * n) (255 * n) (255 * n) (195075 * n).
Proof.
  cbv zeta. unfold pixel_sums. assert (K : forall f : pixel -> Z, sum_over (fun p => f (stored white p)) l = f (Px 255 255 255 195075) * Z.of_nat (length l)).
  { intros f. induction l as [|p l IH]; [cbn [sum_over fold_right length]; lia|]. unfold sum_over in *. cbn [fold_right length]. rewrite IH, white_stored. lia. }
  f_equal; apply K.
Qed.
Theorem C26_overflow_refuted : exists fuel fi v, new_fimg fuel white 1 = Some fi /\ image_tri white big_tri /\
  tri_diff fi (ta big_tri) (tb big_tri) (tc big_tri) = Some v /\ flt (f64_of_Z 1000000000000) v = true.
Proof.
  set (fuel := Z.to_nat (2 ^ 56)). assert (Hf : 2 ^ 56 <= Z.of_nat fuel) by (unfold fuel; rewrite Z2Nat.id; lia). clearbody fuel.
  destruct (from_image_total white white_good) as (t & Et & _).
  destruct (from_imageN_spec white 1 t white_good ltac:(lia) ltac:(cbn; lia) ltac:(cbn; lia) Et) as (tn & En & _).
  assert (E : exists fi, new_fimg fuel white 1 = Some fi) by (unfold new_fimg; rewrite Et, En; eauto). destruct E as (fi & E).
  exists fuel, fi, (diff_of (pixel_sums white (dda_pixels big_tri))). split; [exact E|]. split; [exact big_tri_image|]. split.
  - assert (K : forall t, image_tri white t -> tri_diff fi (ta t) (tb t) (tc t) = Some (diff_of (pixel_sums white (dda_pixels t)))).
    { intros [a b c] T. apply (proj2 (C25_exact_pixels white fi 1 fuel a b c white_good ltac:(cbn; lia) ltac:(cbn; lia) ltac:(lia) ltac:(cbn; lia) ltac:(cbn; lia) E T) Hf). }
    apply K, big_tri_image.
  - rewrite white_sums, big_tri_count. vm_compute. reflexivity.
Qed.
Print Assumptions C26_overflow_refuted.

(** * A run with cache hits, collisions, swaps and an incremental evaluation *)
Definition grad : goimage := GoImage 6 6 (fun x y => (257 * (40 * x), 257 * (20 * y), 257 * (5 * x + 30 * y))).
Definition grad_fi : option fimg := match to_data grad with None => None | Some d => new_fimg 200 (as_idata d) 2 end.
Definition q8 (x y : Z) : npoint := NP (fdiv (f64_of_Z x) (f64_of_Z 8)) (fdiv (f64_of_Z y) (f64_of_Z 8)).
Definition pts0 : list npoint := [q8 0 0; q8 8 0; q8 8 8; q8 0 8; q8 3 4].
Definition ops0 : list eop :=
  [OCalc 0 pts0 []; OCalc 1 [q8 0 0; q8 8 0; q8 0 8] []; OPrepare; OUpdate 0; OUpdate 1; OBase 1 0;
   OCalc 1 [] [Mut (q8 3 4) (q8 5 2) 4]; OPrepare; OUpdate 1; OSwap 0 1; OCalc 0 [] []; OCalc 1 [] []].
Definition micros (f : f64) : Z := go_int (fmul f (f64_of_Z 1000000)).
Definition run_par k n ops := match grad_fi with None => None | Some fi => option_map (fun r => map micros (snd r)) (eop_run (parallel fi insertion_sort) (new_parallel n k) ops) end.
Definition run_bare n ops := match grad_fi with None => None | Some fi => option_map (fun r => map micros (snd r)) (eop_run (bare_ev fi insertion_sort) (new_bare n) ops) end.
Example C24_case : run_par 1 2 ops0 = Some [984008; 481559; 984720; 984720; 984008] /\ run_bare 2 ops0 = Some [984008; 481559; 984720; 984720; 984008].
Proof. split; vm_compute; reflexivity. Qed.
Example C24_case_alternates : alternating (repeat false 2) ops0.
Proof. cbn. repeat split. Qed.
Example C27_case : untouched 1 [OPrepare; OUpdate 1; OSwap 0 1] = Some 0%nat.
Proof. reflexivity. Qed.
Example C25_case : image_tri (as_idata (match to_data grad with Some d => d | None => RGBData 0 0 [] end)) (Tri (Pt 0 0) (Pt 6 0) (Pt 2 3)).
Proof. split; [vm_compute; discriminate|]. intros p Hp. cbn in Hp. destruct Hp as [<-|[<-|[<-|[]]]]; vm_compute; repeat split; discriminate. Qed.
Example C29_case : cache_index (2 ^ 4) (tri_hash (Pt 3 4) (Pt 10 4) (Pt 7 9)) = 6 /\ cache_index 7 (tri_hash (Pt 3 4) (Pt 10 4) (Pt 7 9)) = 6.
Proof. split; vm_compute; reflexivity. Qed.

(** C24_cache_no_panic needs its conditions: with caches of one entry (cachePowerOf2 = 0)
    the first Update panics, because the functions start with a cache of two entries;
    and so does an Update after two calls of Calculate, because the second one stores
    positions in the function's own list of triangles. *)
Definition pts1 : list npoint := [q8 0 0; q8 8 0; q8 0 8; q8 2 3].
Theorem C29_one_entry_refuted : run_par 0 1 [OCalc 0 pts1 []; OPrepare; OUpdate 0] = None /\ run_bare 1 [OCalc 0 pts1 []; OPrepare; OUpdate 0] = Some [489825].
Proof. split; vm_compute; reflexivity. Qed.
Print Assumptions C29_one_entry_refuted.
Theorem C24_calculate_twice_refuted : run_par 1 1 [OCalc 0 pts1 []; OCalc 0 pts1 []; OPrepare; OUpdate 0] = None /\
  run_bare 1 [OCalc 0 pts1 []; OCalc 0 pts1 []; OPrepare; OUpdate 0] = Some [489825; 489825].
Proof. split; vm_compute; reflexivity. Qed.
Print Assumptions C24_calculate_twice_refuted.
