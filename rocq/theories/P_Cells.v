(** C80: the polygons handed to the callbacks of Voronoi and IVoronoi, and the coordinates in the
    caches, on Go's slices. *)
From Coq Require Import ZArith List Bool Arith Lia Permutation.
From Verif Require Import GoNum M_Norm M_Slice M_Geom M_Image M_Raster M_Delaunay M_Algo M_Fitness S_Delaunay S_Remove M_Voronoi S_Voronoi M_Polygons M_Heap M_Cells S_Cells L_Cells L_SliceSort P_Remove P_Voronoi P_Fitness P_Polygons.
Import ListNotations.
Local Open Scope nat_scope.

(** C80: the polygons Voronoi hands to its callback are those of the model of C52-C54, whatever
    lies in memory; memory that existed before is not written to. *)
Theorem C80_voronoi_callback : forall grow srt d w h m, sorter_ok srt ->
  option_map (fun r => map snd (snd r)) (h_voronoi grow srt d w h m) = voronoi srt d w h /\
  forall m' log, h_voronoi grow srt d w h m = Some (m', log) -> forall k, h_arr k < length m -> elems m' k = elems m k.
Proof.
  intros grow srt d w h m SO. unfold h_voronoi, voronoi. destruct (make_empty no_point m 8) as [m1 points] eqn:E1. destruct (make_empty no_point m1 8) as [m2 new] eqn:E2.
  destruct (make_ok _ _ _ _ _ E1) as (_ & V1 & T1 & A1). destruct (make_ok _ _ _ _ _ E2) as (_ & V2 & T2 & A2). pose proof (proj1 T1) as LT. pose proof (proj1 V1) as LV.
  assert (OK : scratch_ok m2 points new) by (split; [exact (touches_valid _ _ _ _ T2 V1)|split; [exact V2|lia]]).
  pose proof (h_voronoi_loop_ok grow srt d w h SO (pm_iter (d_pmap d)) m2 points new OK) as P. unfold heapf in *. destruct (h_voronoi_loop grow srt d w h (m2, points, new) (pm_iter (d_pmap d))) as [[m3 log]|].
  - destruct P as [E T3]. split; [rewrite E; reflexivity|]. intros m' log' [= <- _] k L. assert (T : touches [] m m3).
    { apply (touches_trans _ [h_arr points; h_arr new] m m2 m3); [apply (touches_trans _ _ _ _ _ T1 T2); intros y Iy; destruct Iy|exact T3|]. intros y [<-|[<-|[]]] Ly; lia. }
    apply (touches_elems _ _ _ _ T L). intros F0; exact F0.
  - rewrite P. split; [reflexivity|discriminate].
Qed.
Print Assumptions C80_voronoi_callback.

(* ---------------------------------------------------------------- *)
(** * A callback that keeps the slice *)
Lemma small_h_cell grow srt d w h m points new p : sorter_ok srt -> scratch_ok m points new ->
  match centres d p with None => true | Some cs => small_cell w h p cs end = true -> h_cell grow srt d w h (m, points, new) p = h_cell grow slice_sort d w h (m, points, new) p.
Proof.
  intros SO (VP & VN & NE). unfold h_cell, small_cell. destruct (centres d p) as [cs|]; [|reflexivity]. destruct (fold_left (collect w h) cs ([], false)) as [vs clip]. rewrite andb_true_iff, Nat.leb_le. intros [L K].
  destruct (refill no_point grow m points vs) as [m1 points1] eqn:E1. destruct (refill_ok _ _ _ _ _ _ _ VP E1) as (Q1 & V1 & T1 & M1). rewrite Q1, (so_small _ SO _ _ L).
  destruct (slice_sort _ vs) as [sorted|] eqn:ES; [|reflexivity]. destruct clip; [|reflexivity]. cbn [negb orb] in K. apply Nat.leb_le in K.
  assert (Ls : length sorted = h_len points1) by (rewrite <- (elems_length _ _ V1), Q1; symmetry; apply Permutation_length, (so_perm _ slice_sort_ok _ _ _ ES)).
  destruct (overwrite_ok m1 points1 sorted V1 Ls) as (Q2 & V2 & T2). rewrite Q2. destruct (refill no_point grow (overwrite m1 points1 sorted) new (clip_polygon w h sorted)) as [m3 new1] eqn:E3.
  destruct (refill_ok _ _ _ _ _ _ _ (touches_valid _ _ _ _ T2 (touches_valid _ _ _ _ T1 VN)) E3) as (Q3 & _). rewrite Q3, (so_small _ SO _ _ K). reflexivity.
Qed.
Lemma small_h_loop grow srt d w h : sorter_ok srt -> forall ps m points new, scratch_ok m points new ->
  forallb (fun p => match centres d p with None => true | Some cs => small_cell w h p cs end) ps = true -> h_voronoi_loop grow srt d w h (m, points, new) ps = h_voronoi_loop grow slice_sort d w h (m, points, new) ps.
Proof.
  intros SO. induction ps as [|p ps IH]; intros m points new OK; cbn [forallb h_voronoi_loop]; [reflexivity|]. rewrite andb_true_iff. intros [A B]. rewrite (small_h_cell grow srt) by assumption.
  pose proof (h_cell_ok grow slice_sort d w h m points new p slice_sort_ok OK) as C. destruct (h_cell grow slice_sort d w h (m, points, new) p) as [[[[m1 p1] n1] out]|]; [|reflexivity]. destruct C as (_ & OK1 & _). rewrite (IH m1 p1 n1 OK1 B). reflexivity.
Qed.
Lemma small_h_voronoi grow srt d w h m : sorter_ok srt -> small_cells d w h = true -> h_voronoi grow srt d w h m = h_voronoi grow slice_sort d w h m.
Proof.
  intros SO H. unfold h_voronoi. destruct (make_empty no_point m 8) as [m1 points] eqn:E1. destruct (make_empty no_point m1 8) as [m2 new] eqn:E2.
  destruct (make_ok _ _ _ _ _ E1) as (_ & V1 & T1 & A1). destruct (make_ok _ _ _ _ _ E2) as (_ & V2 & T2 & A2). pose proof (proj1 T1) as LT. pose proof (proj1 V1) as LV.
  apply small_h_loop; [exact SO|split; [exact (touches_valid _ _ _ _ T2 V1)|split; [exact V2|lia]]|exact H].
Qed.
(** The triangulation of three points, the pixels of a polygon, and the comparison of what a
    kept slice shows after Voronoi with what was handed out. *)
Definition triangulated (w h : Z) (pts : list point) : option delaunay := match new_delaunay w h with None => None | Some d => foldM insert pts d end.
Definition pixels_of (l : list fpoint) : list (Z * Z) := map (fun q => (px q, py q)) (map round_point l).
Definition same_pixels (a b : list fpoint) : bool := if list_eq_dec (fun x y : Z * Z => ltac:(decide equality; apply Z.eq_dec)) (pixels_of a) (pixels_of b) then true else false.
Definition kept_ok grow (d : delaunay) : list bool := match h_voronoi grow slice_sort d 100 100 [] with None => [] | Some (m, log) => map (fun e => same_pixels (elems m (fst e)) (snd e)) log end.
Lemma three_kept grow : match triangulated 100 100 three_pixels with None => None | Some d => Some (kept_ok grow d, small_cells d 100 100) end = Some ([false; false; true], true).
Proof. vm_compute. reflexivity. Qed.

(** C80 fails for Voronoi: a slice kept by its callback is overwritten with later cells.  For
    three points in an image of 100x100, the first two of the three polygons handed out have other
    vertices once Voronoi has returned. *)
Lemma in_false {A} (f : A -> bool) l : In false (map f l) -> exists x, In x l /\ f x = false.
Proof. rewrite in_map_iff. intros (x & E & I). eauto. Qed.
Lemma same_pixels_refl a : same_pixels a a = true.
Proof. unfold same_pixels. destruct (list_eq_dec _ _ _) as [_|N]; [reflexivity|destruct (N eq_refl)]. Qed.
Lemma kept_changes grow srt d : sorter_ok srt -> kept_ok grow d = [false; false; true] -> small_cells d 100 100 = true ->
  exists m log k l, h_voronoi grow srt d 100 100 [] = Some (m, log) /\ In (k, l) log /\ elems m k <> l.
Proof.
  intros SO E S. rewrite (small_h_voronoi grow srt) by assumption. unfold kept_ok in E. destruct (h_voronoi grow slice_sort d 100 100 []) as [[m log]|]; [|discriminate].
  assert (I : In false (map (fun e => same_pixels (elems m (fst e)) (snd e)) log)) by (rewrite E; left; reflexivity). apply in_false in I as ([k l] & I & F). cbn [fst snd] in F. exists m, log, k, l. split; [reflexivity|]. split; [exact I|].
  intros N. rewrite N, same_pixels_refl in F. discriminate.
Qed.
Lemma some_pair {A B C} (o : option A) (f : B -> A -> C) c : (forall b : B, match o with None => None | Some d => Some (f b d) end = Some c) -> B -> exists d, o = Some d /\ forall b, f b d = c.
Proof. intros H b. destruct o as [d|]; [|discriminate (H b)]. exists d. split; [reflexivity|]. intros b'. specialize (H b'). congruence. Qed.
Lemma three_pixels_inside : Forall (in_image 100 100) three_pixels.
Proof. repeat constructor; cbn [px py]; lia. Qed.
Theorem C80_voronoi_kept_refuted : exists w h pts d, Forall (in_image w h) pts /\ triangulated w h pts = Some d /\
  forall grow srt, sorter_ok srt -> exists m log k l, h_voronoi grow srt d w h [] = Some (m, log) /\ In (k, l) log /\ elems m k <> l.
Proof.
  destruct (some_pair (triangulated 100 100 three_pixels) (fun grow d => (kept_ok grow d, small_cells d 100 100)) _ three_kept (fun _ => 0)) as (d & ED & E).
  exists 100%Z, 100%Z, three_pixels, d. split; [exact three_pixels_inside|]. split; [exact ED|]. intros grow srt SO. specialize (E grow). cbv beta in E. injection E as E S. exact (kept_changes grow srt d SO E S).
Qed.
Print Assumptions C80_voronoi_kept_refuted.

(* ---------------------------------------------------------------- *)
(** * IVoronoi *)
(** C80: any number of diagrams created, changed and copied to each other behave as if each owned
    its polygons. *)
Theorem C80_refines : forall grow srt hsrt ops, sorter_ok srt -> Forall two_diagrams ops -> option_map show_world (c_run grow srt hsrt no_diagrams ops) = cv_run srt hsrt [] ops.
Proof.
  intros grow srt hsrt ops SO T. pose proof (c_run_ok grow srt SO hsrt ops [] no_diagrams start_good T) as P. change (show_world no_diagrams) with (@nil ivor) in P. destruct (c_run grow srt hsrt no_diagrams ops) as [s|]; cbn [option_map]; [|auto]. symmetry. apply P.
Qed.
Print Assumptions C80_refines.

Lemma filter_map {A B} (f : A -> B) (p : B -> bool) l : filter p (map f l) = map f (filter (fun x => p (f x)) l).
Proof. induction l as [|x l IH]; [reflexivity|]. cbn [map filter]. rewrite IH. destruct (p (f x)); reflexivity. Qed.
(** C80: the slices IterPolygons hands out hold the polygons of the diagram, and keep them
    whatever is called afterwards on this diagram and on others. *)
Theorem C80_kept : forall grow srt hsrt ops1 s v, sorter_ok srt -> Forall two_diagrams ops1 -> c_run grow srt hsrt no_diagrams ops1 = Some s -> In v (cw_objs s) ->
  map (elems (cw_heap s)) (hiv_iter (cw_heap s) v) = iv_iter (show_iv (cw_heap s) v) /\
  forall k ops2 s', In k (hiv_iter (cw_heap s) v) -> Forall two_diagrams ops2 -> c_run grow srt hsrt s ops2 = Some s' -> elems (cw_heap s') k = elems (cw_heap s) k.
Proof.
  intros grow srt hsrt ops1 s v SO T E I. split.
  - unfold hiv_iter, iv_iter, show_iv, gm_iter, hm_iter. cbn [v_map]. rewrite <- concat_map, map_map. cbn [snd].
    rewrite <- (map_map snd (elems (cw_heap s)) (concat (hv_map v))), <- filter_map. reflexivity.
  - intros k ops2 s' Ik T2 E2. pose proof (c_run_ok grow srt SO hsrt ops1 [] no_diagrams start_good T) as P. rewrite E in P. destruct P as (_ & F & _ & G & _).
    pose proof (c_run_ok grow srt SO hsrt ops2 F s G T2) as Q. rewrite E2 in Q. destruct Q as (_ & F' & _ & _ & K). apply K. apply (proj2 (proj2 G v I)). unfold hiv_iter in Ik. apply filter_In in Ik. apply Ik.
Qed.
Print Assumptions C80_kept.

Lemma filter_bucket_length (gm gm' : hmap) i b : zset gm i b = Some gm' -> length gm' = length gm.
Proof. unfold zset. destruct (znth gm i); [|discriminate]. intros [= <-]. apply set_nth_length. Qed.
Lemma hm_add_length gm p k gm' : hm_add gm p k = Some gm' -> length gm' = length gm.
Proof. unfold hm_add. destruct (bucket gm p) as [[i b]|]; [|discriminate]. apply filter_bucket_length. Qed.
Lemma hm_remove_length gm p gm' : hm_remove gm p = Some gm' -> length gm' = length gm.
Proof. unfold hm_remove. destruct (bucket gm p) as [[i b]|]; [|discriminate]. destruct (find_index _ b); [|discriminate]. apply filter_bucket_length. Qed.
Lemma hm_removes_length ps : forall gm gm', foldM hm_remove ps gm = Some gm' -> length gm' = length gm.
Proof. induction ps as [|p ps IH]; cbn [foldM]; intros gm gm'; [congruence|]. destruct (hm_remove gm p) as [g|] eqn:E; [|discriminate]. intros H. rewrite (IH _ _ H). eapply hm_remove_length; eauto. Qed.
Lemma h_process_length grow srt d w h st p st' : h_process grow srt d w h st p = Some st' -> length (snd st') = length (snd st).
Proof.
  destruct st as [[[m p1] n1] gm]. unfold h_process. destruct (h_cell grow srt d w h (m, p1, n1) p) as [[[[m1 p2] n2] out]|]; [|discriminate].
  destruct (fresh_copy no_point grow m1 (elems m1 out)) as [m2 k]. destruct (hm_add gm p k) as [gm'|] eqn:E; [|discriminate]. intros [= <-]. cbn [snd]. eapply hm_add_length; eauto.
Qed.
Lemma h_processes_length grow srt d w h ps : forall st st', foldM (h_process grow srt d w h) ps st = Some st' -> length (snd st') = length (snd st).
Proof. induction ps as [|p ps IH]; cbn [foldM]; intros st st'; [congruence|]. destruct (h_process grow srt d w h st p) as [g|] eqn:E; [|discriminate]. intros H. rewrite (IH _ _ H). eapply h_process_length; eauto. Qed.
Lemma h_update_length grow srt v d m old new m' v' : h_update grow srt v d m old new = Some (m', v') -> length (hv_map v') = length (hv_map v).
Proof.
  unfold h_update. destruct (foldM hm_remove old (hv_map v)) as [gm|] eqn:E; [|discriminate]. destruct (foldM _ new _) as [[[[a b] c] g]|] eqn:E2; [|discriminate]. intros [= _ <-]. cbn [hv_map].
  pose proof (h_processes_length _ _ _ _ _ _ _ _ E2) as L. cbn [snd] in L. rewrite L. eapply hm_removes_length; eauto.
Qed.
Lemma hiv_insert_length grow srt m v p m' v' : hiv_insert grow srt m v p = Some (m', v') -> length (hv_map v') = length (hv_map v).
Proof.
  unfold hiv_insert. destruct (copies_of _ p) as [c|]; [|discriminate]. destruct (0 <? c)%Z.
  - destruct (insert _ p); [|discriminate]. intros [= _ <-]. reflexivity.
  - destruct (iter_circles_containing _ _ _); [|discriminate]. destruct (foldM _ l []); [|discriminate]. destruct (insert _ p); [|discriminate]. apply h_update_length.
Qed.
Lemma hiv_remove_length grow srt hsrt m v p m' v' : hiv_remove grow srt hsrt m v p = Some (m', v') -> length (hv_map v') = length (hv_map v).
Proof.
  unfold hiv_remove. destruct (copies_of _ p) as [c|]; [|discriminate]. destruct (1 <? c)%Z.
  - destruct (remove _ _ p); [|discriminate]. intros [= _ <-]. reflexivity.
  - destruct (iter_with_vertex _ _ _); [|discriminate]. destruct (foldM _ l []); [|discriminate]. destruct (remove _ _ p); [|discriminate]. apply h_update_length.
Qed.
Lemma mapM_len {A B} (f : A -> option B) l : forall r, mapM f l = Some r -> length r = length l.
Proof. induction l as [|a l IH]; cbn [mapM]; intros r; [intros [= <-]; reflexivity|]. destruct (f a); [|discriminate]. destruct (mapM f l); [|discriminate]. intros [= <-]. cbn [length]. f_equal. apply IH. reflexivity. Qed.
Definition six (s : cworld) : Prop := Forall (fun v => length (hv_map v) = 6) (cw_objs s).
Lemma six_set i v l : Forall (fun v => length (hv_map v) = 6) l -> length (hv_map v) = 6 -> Forall (fun v => length (hv_map v) = 6) (set_nth i v l).
Proof. rewrite !Forall_forall. intros H L x I. apply in_set_nth in I as [->|I]; auto. Qed.
Lemma six_step grow srt hsrt s o s' : six s -> c_exec grow srt hsrt s o = Some s' -> six s'.
Proof.
  unfold six. intros Hs. destruct o as [w h|i p|i p|i j]; cbn [c_exec].
  - unfold hiv_make. destruct (new_delaunay w h); [|discriminate]. destruct (make_empty no_point (cw_heap s) 0) as [m1 a]. destruct (make_empty no_point m1 0) as [m2 b]. intros [= <-]. cbn [cw_objs]. apply Forall_app. split; [exact Hs|]. repeat constructor.
  - destruct (nth_error (cw_objs s) i) as [v|] eqn:E; [|discriminate]. destruct (hiv_insert _ _ _ v p) as [[m v']|] eqn:EI; [|discriminate]. intros [= <-]. cbn [cw_objs fst snd]. apply six_set; [exact Hs|]. rewrite (hiv_insert_length _ _ _ _ _ _ _ EI). rewrite Forall_forall in Hs. eapply Hs, nth_error_In, E.
  - destruct (nth_error (cw_objs s) i) as [v|] eqn:E; [|discriminate]. destruct (hiv_remove _ _ _ _ v p) as [[m v']|] eqn:EI; [|discriminate]. intros [= <-]. cbn [cw_objs fst snd]. apply six_set; [exact Hs|]. rewrite (hiv_remove_length _ _ _ _ _ _ _ _ EI). rewrite Forall_forall in Hs. eapply Hs, nth_error_In, E.
  - destruct (nth_error (cw_objs s) i) as [v|] eqn:E; [|discriminate]. destruct (nth_error (cw_objs s) j) as [u|]; [|discriminate]. destruct (hiv_set v u) as [v'|] eqn:ES; [|discriminate]. intros [= <-]. cbn [cw_objs]. apply six_set; [exact Hs|].
    unfold hiv_set in ES. destruct (d_set _ _); [|discriminate]. destruct (table_set _ _) as [gm|] eqn:ET; [|discriminate]. injection ES as <-. cbn [hv_map]. unfold table_set in ET. rewrite (mapM_len _ _ _ ET), seq_length. rewrite Forall_forall in Hs. eapply Hs, nth_error_In, E.
Qed.
Lemma six_run grow srt hsrt ops : forall s s', six s -> c_run grow srt hsrt s ops = Some s' -> six s'.
Proof.
  unfold c_run. induction ops as [|o ops IH]; intros s s' H; cbn [foldM]; [intros [= <-]; exact H|]. destruct (c_exec grow srt hsrt s o) as [s1|] eqn:E; [|discriminate]. apply IH. eapply six_step; eauto.
Qed.
Lemma table_set_same {A} (t o r : list (list A)) : length t = length o -> table_set t o = Some r -> r = o.
Proof.
  unfold table_set. intros ->. revert r. assert (G : forall (pre o r : list (list A)), mapM (fun i => nth_error (pre ++ o) i) (seq (length pre) (length o)) = Some r -> r = o).
  { intros pre o0. revert pre. induction o0 as [|a o0 IH]; intros pre r; cbn [length seq mapM]; [congruence|]. rewrite nth_error_app2, Nat.sub_diag by lia. cbn [nth_error].
    destruct (mapM _ (seq (S (length pre)) (length o0))) as [r'|] eqn:E; [|discriminate]. intros [= <-]. f_equal. apply (IH (pre ++ [a])). rewrite app_length, <- app_assoc. cbn [length app]. replace (length pre + 1) with (S (length pre)) by lia. exact E. }
  intros r H. exact (G [] o r H).
Qed.
Lemma nth_error_set_nth {A} i (x : A) l j : nth_error (set_nth i x l) j = if i =? j then option_map (fun _ => x) (nth_error l j) else nth_error l j.
Proof.
  revert i j. induction l as [|a l IH]; intros [|i] [|j]; cbn; try reflexivity; [destruct (i =? j); reflexivity|]. exact (IH i j).
Qed.

(** C80: after v.Set(o) the two diagrams hand out the very same slices (so a program that writes
    into a polygon it received changes both), while no later call on one is visible in the other
    (C80_refines). *)
Theorem C80_set_shares : forall grow srt hsrt ops s i j s' v o, c_run grow srt hsrt no_diagrams ops = Some s -> i <> j -> c_exec grow srt hsrt s (VSet i j) = Some s' ->
  nth_error (cw_objs s') i = Some v -> nth_error (cw_objs s') j = Some o -> hiv_iter (cw_heap s') v = hiv_iter (cw_heap s') o.
Proof.
  intros grow srt hsrt ops s i j s' v o R N E Ev Eo. assert (H6 : six s) by (eapply six_run; [|exact R]; constructor). cbn [c_exec] in E.
  destruct (nth_error (cw_objs s) i) as [v0|] eqn:E1; [|discriminate]. destruct (nth_error (cw_objs s) j) as [o0|] eqn:E2; [|discriminate]. destruct (hiv_set v0 o0) as [v1|] eqn:ES; [|discriminate]. injection E as <-. cbn [cw_objs cw_heap] in *.
  rewrite nth_error_set_nth, Nat.eqb_refl, E1 in Ev. injection Ev as <-. rewrite nth_error_set_nth, (proj2 (Nat.eqb_neq i j) N), E2 in Eo. injection Eo as <-.
  unfold hiv_set in ES. destruct (d_set _ _); [|discriminate]. destruct (table_set _ _) as [gm|] eqn:ET; [|discriminate]. injection ES as <-. unfold hiv_iter. cbn [hv_map]. unfold six in H6. rewrite Forall_forall in H6.
  rewrite (table_set_same _ _ _ (eq_trans (H6 _ (nth_error_In _ _ E1)) (eq_sym (H6 _ (nth_error_In _ _ E2)))) ET). reflexivity.
Qed.
Print Assumptions C80_set_shares.

(* ---------------------------------------------------------------- *)
(** * The coordinates in the caches *)
(** C80: Calculate of the polygon functions gives what it gives when every entry of the cache owns
    its coordinates; no entry that existed before changes. *)
Theorem C80_cache : forall grow im alias m tris v, cache_in_heap m tris ->
  option_map (fun r => (snd (fst r), map (show_entry (fst (fst r))) (snd r))) (h_calc_poly grow im alias m tris v) = calc_poly im alias (map (option_map (show_entry m)) tris) v /\
  forall m' fit next, h_calc_poly grow im alias m tris v = Some (m', fit, next) -> (forall e, in_heap m e -> show_entry m' e = show_entry m e /\ in_heap m' e) /\ forall e, In e next -> in_heap m' e.
Proof.
  intros grow im alias m tris v C. pose proof (h_calc_poly_ok grow im alias m tris v C) as P. destruct (h_calc_poly grow im alias m tris v) as [[[m' fit] next]|]; cbn [option_map fst snd].
  - destruct P as (E & T & I). split; [rewrite E; reflexivity|]. intros m0 fit0 next0 [= <- _ <-]. split; [|exact I]. intros e [A B]. split; [|exact (touches_valid _ _ _ _ T (conj A B))].
    unfold show_entry. f_equal. apply (touches_elems _ _ _ _ T A). intros H; exact H.
  - split; [auto|discriminate].
Qed.
Print Assumptions C80_cache.

(* ---------------------------------------------------------------- *)
(** * Cases *)
(** Three points; a second diagram is set to it; a fourth point goes to each.  Slices kept from
    the first diagram after the first three points still show the cells of the three points. *)
Definition case_ops1 : list cop := [VNew 100 100; VInsert 0 (Pt 10 10); VInsert 0 (Pt 90 10); VInsert 0 (Pt 50 90)].
Definition case_ops2 : list cop := [VNew 100 100; VSet 1 0; VInsert 1 (Pt 50 60); VInsert 0 (Pt 20 30); VRemove 0 (Pt 90 10)].
Definition case_run (grow : list (list fpoint) -> nat) (ops1 ops2 : list cop) : option (list (list (Z * Z)) * list (list (Z * Z)) * list nat) :=
  match c_run grow slice_sort insertion_sort no_diagrams ops1 with
  | None => None
  | Some s =>
      match nth_error (cw_objs s) 0 with
      | None => None
      | Some v =>
          let kept := hiv_iter (cw_heap s) v in
          let before := map (fun k => pixels_of (elems (cw_heap s) k)) kept in
          match c_run grow slice_sort insertion_sort s ops2 with
          | None => None
          | Some s' => Some (before, map (fun k => pixels_of (elems (cw_heap s') k)) kept, map (fun v => length (hiv_iter (cw_heap s') v)) (cw_objs s'))
          end
      end
  end.
Definition three_cells : list (list (Z * Z)) := [[(0, 65); (0, 0); (50, 0); (50, 40)]; [(50, 40); (50, 0); (100, 0); (100, 65)]; [(0, 65); (50, 40); (100, 65)]]%Z.
Example C80_case : Forall two_diagrams case_ops1 /\ Forall two_diagrams case_ops2 /\ case_run (fun _ => 3) case_ops1 case_ops2 = Some (three_cells, three_cells, [3; 4]).
Proof. split; [repeat constructor|]. split; [repeat constructor; discriminate|]. vm_compute. reflexivity. Qed.

(** The cells of three points in an image of 6x6: the first Calculate fills an empty cache; with its
    entries stored, the second finds all three, and hands on the same slices. *)
Definition cache_run (grow : list (list Z) -> nat) : option (list (list Z) * list (list Z) * list nat * list nat) :=
  match grad_fi, new_voronoi 6 6 with
  | Some im, Some v0 =>
      match foldM (iv_insert slice_sort) [Pt 1 1; Pt 5 1; Pt 3 5] v0 with
      | None => None
      | Some v =>
          match h_calc_poly grow im false [] (repeat None 8) v with
          | None => None
          | Some (m, _, next) =>
              match h_calc_poly grow im false m (fold_left (fun t e => set_nth (Z.to_nat (he_hash e)) (Some e) t) next (repeat None 8)) v with
              | None => None
              | Some (m', _, next') => Some (map (fun e => elems m (he_coords e)) next, map (fun e => elems m' (he_coords e)) next, map (fun e => h_arr (he_coords e)) next, map (fun e => h_arr (he_coords e)) next')
              end
          end
      end
  | _, _ => None
  end.
Definition small_coords : list (list Z) := [[0; 4; 0; 0; 3; 0; 3; 3]; [3; 3; 3; 0; 6; 0; 6; 4]; [0; 4; 3; 3; 6; 4]]%Z.
Example C80_cache_case : cache_run (fun _ => 3) = Some (small_coords, small_coords, [3; 4; 5], [3; 4; 5]).
Proof. vm_compute. reflexivity. Qed.
