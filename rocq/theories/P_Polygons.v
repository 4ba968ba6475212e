(** C65: the caches of the polygon fitness functions. *)
From Coq Require Import ZArith Reals List Bool Arith Lia Lra Permutation.
From Flocq Require Import Core.Raux IEEE754.BinarySingleNaN.
From Verif Require Import GoNum M_Norm M_Slice M_Geom M_Image M_Raster S_Norm M_Delaunay S_Delaunay M_Algo S_Algo M_Fitness S_Fitness M_Voronoi S_Voronoi M_Polygons S_Polygons
  FloatLemmas L_Centres L_Fit L_Fit3 L_Poly L_Poly2 P_Fitness P_Remove P_Voronoi.
Import ListNotations.
Open Scope Z_scope.

Lemma only_fits im srt hsrt ops : forall b fs b' fs' gs, foldM (eop_step (vor_only im srt hsrt)) ops (b, fs) = Some (b', fs') ->
  exists gs', foldM (eop_step (vor_only im srt hsrt)) ops (b, gs) = Some (b', gs').
Proof.
  induction ops as [|o ops IH]; intros b fs b' fs' gs; cbn [foldM]; [intros [= <- <-]; eauto|].
  destruct (eop_step (vor_only im srt hsrt) (b, fs) o) as [[b1 f1]|] eqn:E; [|discriminate]. intros R.
  assert (X : exists g1, eop_step (vor_only im srt hsrt) (b, gs) o = Some (b1, g1)).
  { clear R IH. destruct o as [i pts muts|i| |i j|i j]; cbn [eop_step] in *.
    - destruct (ev_calc _ b i pts muts) as [[b2 v]|]; [|discriminate]. cbn [option_map fst snd] in *. injection E as -> _. eauto.
    - destruct (ev_update _ b i) as [b2|]; [|discriminate]. cbn [option_map] in *. injection E as -> _. eauto.
    - destruct (ev_prepare _ b) as [b2|]; [|discriminate]. cbn [option_map] in *. injection E as -> _. eauto.
    - destruct (ev_base _ b i j) as [b2|]; [|discriminate]. cbn [option_map] in *. injection E as -> _. eauto.
    - destruct (ev_swap _ b i j) as [b2|]; [|discriminate]. cbn [option_map] in *. injection E as -> _. eauto. }
  destruct X as (g1 & X). rewrite X. eapply IH; eauto.
Qed.
Lemma run_framed_from im srt hsrt n k ops : run_framed im srt hsrt n ops -> framed_from im srt hsrt (pstrip (new_pparallel n k)) ops.
Proof.
  intros F ops1 ops2 fs b' fs' E R. rewrite (proj2 (new_pparallel_ok im n k)) in R. destruct (only_fits _ _ _ _ _ _ _ _ [] R) as (gs & R'). exact (F ops1 ops2 b' gs E R').
Qed.

(** Whatever operations are performed on the parallel evaluator in whatever order, as long
    as the diagrams stay in the frame of the image, the fitnesses returned are those of an
    evaluator without any cache. *)
Theorem C65_cache_transparent : forall im srt hsrt n k ops p fs, 0 <= fi_w im <= 32767 -> 0 <= fi_h im <= 32767 -> run_framed im srt hsrt n ops ->
  eop_run (pparallel im srt hsrt) (new_pparallel n k) ops = Some (p, fs) ->
  exists b, eop_run (vor_ev im srt hsrt) (new_keeper ivor n) ops = Some (b, fs).
Proof.
  intros im srt hsrt n k ops p fs Hw Hh F H. destruct (new_pparallel_ok im n k) as [O S]. exists (pstrip p). unfold eop_run in *. rewrite <- S.
  apply (prun_sim im srt hsrt Hw Hh ops _ _ _ _ O (run_framed_from _ _ _ _ k _ F) H).
Qed.
Print Assumptions C65_cache_transparent.

(** Conversely, if Calculate and Update alternate on every function, the caches add no
    panic of their own. *)
Theorem C65_cache_no_panic : forall im srt hsrt n k ops b fs, 0 <= fi_w im <= 32767 -> 0 <= fi_h im <= 32767 -> run_framed im srt hsrt n ops ->
  (1 <= k <= 62)%nat -> alternating (repeat false n) ops ->
  eop_run (vor_ev im srt hsrt) (new_keeper ivor n) ops = Some (b, fs) ->
  exists p, eop_run (pparallel im srt hsrt) (new_pparallel n k) ops = Some (p, fs).
Proof.
  intros im srt hsrt n k ops b fs Hw Hh F Hk HA H. destruct (new_pparallel_ok im n k) as [O S]. unfold eop_run in *.
  assert (N : 2 <= Z.of_nat (2 ^ k) < 2 ^ 63).
  { rewrite Nat2Z.inj_pow. change (Z.of_nat 2) with 2. split; [change 2 with (2 ^ 1) at 1; apply Z.pow_le_mono_r; lia|apply Z.pow_lt_mono_r; lia]. }
  assert (A : alternating (map (fun _ => false) (pp_order (new_pparallel n k))) ops).
  { cbn [new_pparallel pp_order]. replace (map (fun _ : nat => false) (seq 0 n)) with (repeat false n); [exact HA|].
    clear. generalize 0%nat. induction n as [|n IH]; intros s; [reflexivity|]. cbn [repeat seq map]. now rewrite <- IH. }
  rewrite <- S in H. pose proof (prun_turn im srt hsrt Hw Hh _ ops N (new_pparallel n k) [] (fun _ => false) (b, fs) O (run_framed_from _ _ _ _ k _ F) (new_pturn_ok n k) A H) as T.
  destruct (foldM (eop_step (pparallel im srt hsrt)) ops (new_pparallel n k, [])) as [[p fs']|] eqn:E; [|congruence].
  destruct (prun_sim im srt hsrt Hw Hh ops _ _ _ _ O (run_framed_from _ _ _ _ k _ F) E) as [_ E2]. rewrite H in E2. injection E2 as _ <-. now exists p.
Qed.
Print Assumptions C65_cache_no_panic.

(** * Concrete operations
    Two functions on a 6x6 image; the operations of C24_case. *)
Definition run_pp k n ops := match grad_fi with None => None | Some fi => option_map (fun r => map micros (snd r)) (eop_run (pparallel fi slice_sort insertion_sort) (new_pparallel n k) ops) end.
Definition run_pb n ops := match grad_fi with None => None | Some fi => option_map (fun r => map micros (snd r)) (eop_run (vor_ev fi slice_sort insertion_sort) (new_keeper ivor n) ops) end.
Example C65_case : run_pp 1 2 ops0 = Some [986355; 982614; 985383; 985383; 986355] /\ run_pb 2 ops0 = Some [986355; 982614; 985383; 985383; 986355].
Proof. split; vm_compute; reflexivity. Qed.
Lemma Rle_bool_true' x y : Rle_bool x y = true -> (x <= y)%R. Proof. destruct (Rle_bool_spec x y); [auto|discriminate]. Qed.
Definition frameb (w h : Z) (p : fpoint) : bool :=
  is_finite (nx p) && is_finite (ny p) && (fle f0 (nx p) && fle (nx p) (f64_of_Z w)) && (fle f0 (ny p) && fle (ny p) (f64_of_Z h)).
Lemma frameb_ok w h p : Z.abs w <= 2 ^ 20 -> Z.abs h <= 2 ^ 20 -> frameb w h p = true -> in_frame w h p.
Proof.
  intros Hw Hh. unfold frameb. rewrite !andb_true_iff. intros [[[A B] [C1 C2]] [D1 D2]].
  destruct (of_Z_R w ltac:(lia)) as [Fw Ew]. destruct (of_Z_R h ltac:(lia)) as [Fh Eh].
  assert (F0 : is_finite f0 = true /\ B2R f0 = 0%R) by (split; reflexivity). destruct F0 as [F0 E0].
  rewrite (fle_R _ _ F0 A), E0 in C1. rewrite (fle_R _ _ A Fw), Ew in C2. rewrite (fle_R _ _ F0 B), E0 in D1. rewrite (fle_R _ _ B Fh), Eh in D2. apply Rle_bool_true' in C1, C2, D1, D2.
  split; [exact A|]. split; [exact B|]. lra.
Qed.
Definition keptb (im : fimg) (b : keeper ivor) : bool :=
  forallb (fun x => match fst x with None => true | Some v => forallb (fun l : list fpoint => forallb (frameb (fi_w im) (fi_h im)) l) (iv_iter v) end) (b_funs b).
Lemma keptb_ok im b : Z.abs (fi_w im) <= 2 ^ 20 -> Z.abs (fi_h im) <= 2 ^ 20 -> keptb im b = true -> all_framed im b.
Proof.
  intros Hw Hh K v o I poly Ip. unfold keptb in K. rewrite forallb_forall in K. specialize (K _ I). cbn [fst] in K. rewrite forallb_forall in K. specialize (K _ Ip).
  rewrite forallb_forall in K. apply Forall_forall. intros p J. apply frameb_ok; auto.
Qed.
Fixpoint framedb_from (im : fimg) srt hsrt (ops : list eop) (x : keeper ivor * list f64) : bool :=
  keptb im (fst x) && match ops with [] => true | o :: ops => match eop_step (vor_only im srt hsrt) x o with None => true | Some y => framedb_from im srt hsrt ops y end end.
Definition framedb (im : fimg) srt hsrt n ops : bool := framedb_from im srt hsrt ops (new_keeper ivor n, []).
Lemma framedb_ok im srt hsrt n ops : Z.abs (fi_w im) <= 2 ^ 20 -> Z.abs (fi_h im) <= 2 ^ 20 -> framedb im srt hsrt n ops = true -> run_framed im srt hsrt n ops.
Proof.
  intros Hw Hh K ops1 ops2 b fs E R. unfold framedb in K. unfold eop_run in R. subst ops. revert K R. generalize (new_keeper ivor n, @nil f64).
  induction ops1 as [|o ops1 IH]; intros x K R; cbn [foldM app framedb_from] in *.
  - injection R as ->. apply keptb_ok; [exact Hw|exact Hh|]. cbn [fst] in K. destruct ops2; apply andb_true_iff in K; apply K.
  - apply andb_true_iff in K as [_ K]. destruct (eop_step (vor_only im srt hsrt) x o) as [y|]; [|discriminate]. apply (IH y K R).
Qed.
Definition case_framed (gf : option fimg) : bool := match gf with None => false | Some fi => (fi_w fi =? 6) && (fi_h fi =? 6) && framedb fi slice_sort insertion_sort 2 ops0 end.
Lemma case_framed_ok gf : case_framed gf = true -> exists fi, gf = Some fi /\ run_framed fi slice_sort insertion_sort 2 ops0.
Proof.
  unfold case_framed. destruct gf as [fi|]; [|discriminate]. rewrite !andb_true_iff, !Z.eqb_eq. intros [[W H] K]. exists fi. split; [reflexivity|]. apply framedb_ok; [lia|lia|exact K].
Qed.
Example C65_case_framed : exists fi, grad_fi = Some fi /\ run_framed fi slice_sort insertion_sort 2 ops0.
Proof. apply case_framed_ok. vm_compute. reflexivity. Qed.

(** * C67 *)
Definition small_insert (v : ivor) (p : point) : bool :=
  match iter_circles_containing (d_grid (v_d v)) p (d_tris (v_d v)) with
  | None => true
  | Some l =>
      match foldM (update_corners (d_super (v_d v)) (d_tris (v_d v))) l [], insert (v_d v) p with
      | Some upd, Some d => forallb (fun q => match centres d q with None => true | Some cs => small_cell (v_w v) (v_h v) q cs end) (to_update (d_super d) upd p)
      | _, _ => true
      end
  end.
Lemma small_insert_ok srt v p : sorter_ok srt -> small_insert v p = true -> iv_insert srt v p = iv_insert slice_sort v p.
Proof.
  intros SO. unfold small_insert, iv_insert. destruct (copies_of _ p) as [c|]; [|reflexivity]. destruct (0 <? c); [reflexivity|].
  destruct (iter_circles_containing _ p _) as [l|]; [|reflexivity]. destruct (foldM (update_corners _ _) l []) as [upd|]; [|reflexivity]. destruct (insert (v_d v) p) as [d|]; [|reflexivity].
  destruct (foldM remove_polygon upd (v_map v)) as [gm|]; [|reflexivity]. intros H. f_equal. revert gm H. induction (to_update (d_super d) upd p) as [|q k IH]; intros gm H; cbn [foldM forallb] in *; [reflexivity|].
  apply andb_true_iff in H as [H1 H2]. assert (E : process_point srt (v_w v) (v_h v) d gm q = process_point slice_sort (v_w v) (v_h v) d gm q).
  { unfold process_point, cell_of. destruct (centres d q) as [cs|]; [|reflexivity]. rewrite (small_cell_sort srt) by assumption. reflexivity. }
  rewrite E. destruct (process_point slice_sort _ _ d gm q); [apply IH, H2|reflexivity].
Qed.
Definition blank (p : point) (o : option ivor) : bool :=
  match o with None => false | Some v => small_insert v p && match iv_insert slice_sort v p with None => false | Some v' => match iv_iter v' with [] => true | _ => false end end end.
Lemma blank_100 : blank (create_point (nx (at_pixel 100 100 (Pt 50 50))) (ny (at_pixel 100 100 (Pt 50 50))) 100 100) (new_voronoi 100 100) = true.
Proof. vm_compute. reflexivity. Qed.
Lemma blank_diff im alias tris v : iv_iter v = [] -> calc_poly im alias tris v = Some (fsub f1 (fdiv f0 (fi_max im)), []).
Proof. unfold calc_poly. intros ->. reflexivity. Qed.
Lemma blank_next srt hsrt fi p : sorter_ok srt -> blank (mut_point fi p) (new_voronoi (fi_w fi) (fi_h fi)) = true ->
  exists v, next_vor fi srt hsrt None None [p] [] = Some v /\ iv_iter v = [].
Proof.
  intros SO B. unfold next_vor. destruct (new_voronoi (fi_w fi) (fi_h fi)) as [v0|]; [|discriminate]. unfold blank in B. apply andb_true_iff in B as [B1 B2]. cbn [foldM].
  rewrite (small_insert_ok srt _ _ SO B1). destruct (iv_insert slice_sort v0 _) as [v'|]; [|discriminate]. exists v'. split; [reflexivity|]. destruct (iv_iter v'); [reflexivity|discriminate].
Qed.
Lemma blank_calc srt hsrt fi p e0 : sorter_ok srt -> pat_pos e0 0 = Some (0%nat, new_pfun) -> blank (mut_point fi p) (new_voronoi (fi_w fi) (fi_h fi)) = true ->
  exists e, eop_run (pparallel fi srt hsrt) e0 [OCalc 0 [p] []] = Some (e, [fsub f1 (fdiv f0 (fi_max fi))]).
Proof.
  intros SO P B. destruct (blank_next srt hsrt fi p SO B) as (v & En & Ev). unfold eop_run. cbn [foldM eop_step pparallel ev_calc]. unfold ppar_calc. rewrite P. unfold new_pfun. cbn [pf_base].
  unfold calc_pfun. cbn [pf_tri pf_cache pcache_view]. rewrite En, (blank_diff _ _ _ _ Ev). cbn [option_map fst snd app]. eexists. reflexivity.
Qed.
Lemma first_new k : pat_pos (new_pparallel 1 k) 0 = Some (0%nat, new_pfun). Proof. reflexivity. Qed.
Lemma blank_fit srt hsrt k fi p w h : sorter_ok srt -> fi_w fi = w -> fi_h fi = h -> blank (create_point (nx p) (ny p) w h) (new_voronoi w h) = true ->
  exists e, eop_run (pparallel fi srt hsrt) (new_pparallel 1 k) [OCalc 0 [p] []] = Some (e, [fsub f1 (fdiv f0 (fi_max fi))]).
Proof. intros SO <- <- B. apply blank_calc; [exact SO|apply first_new|exact B]. Qed.
(** One point in the middle of a 100x100 image: no polygon is drawn and whatever the image
    shows, the fitness is 1, that of a perfect picture. *)
Theorem C67_blank_refuted : exists p w h, usual_size w h /\ pt_in_unit p /\
  forall srt hsrt k im bs fuel fi, sorter_ok srt -> i_w im = w -> i_h im = h -> new_fimg fuel im bs = Some fi ->
  exists e f, eop_run (pparallel fi srt hsrt) (new_pparallel 1 k) [OCalc 0 [p] []] = Some (e, [f]) /\ feq f f1 = true.
Proof.
  exists (at_pixel 100 100 (Pt 50 50)), 100, 100. split; [exact size_100|]. split; [apply at_pixel_unit; [lia|lia|split; cbn [px py]; lia]|].
  intros srt hsrt k im bs fuel fi SO W H E. unfold new_fimg in E. destruct (from_image im); [|discriminate]. destruct (from_imageN im bs); [|discriminate]. injection E as <-.
  match goal with |- context [pparallel ?x srt hsrt] => destruct (blank_fit srt hsrt k x (at_pixel 100 100 (Pt 50 50)) 100 100 SO W H blank_100) as (e & Ee) end.
  exists e. eexists. split; [exact Ee|]. cbn [fi_max]. rewrite W, H. vm_compute. reflexivity.
Qed.
Print Assumptions C67_blank_refuted.
