(** Transparency of the polygon caches. *)
From Coq Require Import ZArith Reals List Bool Lia Lra Arith.
From Flocq Require Import Core IEEE754.BinarySingleNaN.
From Verif Require Import GoNum FloatLemmas M_Norm M_Slice M_Geom S_Geom M_Image M_Raster S_Raster M_Delaunay S_Delaunay M_Algo M_Fitness S_Fitness M_Voronoi S_Voronoi M_Polygons S_Polygons
  L_PMap L_Geom L_Super L_Fit L_Voronoi2 L_SimH.
Import ListNotations.
Open Scope Z_scope.

(** * Rounded vertices *)
Lemma fast_coord x w : 0 <= w <= 32767 -> fin x -> (- 0.000100001 <= R64 x <= IZR w + 0.000100001)%R -> 0 <= fast_round x <= w.
Proof.
  intros Hw F B. assert (Hwr : (0 <= IZR w <= 32767)%R) by (split; apply IZR_le; lia).
  unfold fast_round. assert (Fh : fin fhalf) by reflexivity. assert (Eh : R64 fhalf = (/ 2)%R) by (vm_compute; lra).
  assert (B1023 : (bpow radix2 51 <= bpow radix2 1023)%R) by (apply bpow_le; lia). assert (B51 : (40000 <= bpow radix2 51)%R) by (apply (IZR_le 40000 (2 ^ 51)); lia).
  destruct (fadd_R x fhalf F Fh) as [Fa Ea]. { rewrite Eh, Rabs_pos_eq by lra. lra. }
  rewrite Eh in Ea. set (y := fadd x fhalf) in *.
  assert (Hy : (0 <= R64 y <= IZR (4 * w + 3) * bpow radix2 (-2))%R).
  { rewrite Ea. split; [rewrite <- rnd_0; apply rnd_le; lra|]. rewrite <- (rnd_dy (4 * w + 3) (-2)) by lia. apply rnd_le.
    change (bpow radix2 (-2)) with (/ 4)%R. rewrite plus_IZR, mult_IZR. lra. }
  change (bpow radix2 (-2)) with (/ 4)%R in Hy. rewrite plus_IZR, mult_IZR in Hy.
  rewrite (go_int_small y (w + 1)); [|exact Fa| |lia].
  - rewrite Ztrunc_floor by apply Hy. split; [apply Zfloor_lub; apply Hy|]. apply Z.lt_succ_r, lt_IZR. rewrite succ_IZR. eapply Rle_lt_trans; [apply Zfloor_lb|]. lra.
  - rewrite Rabs_pos_eq by apply Hy. rewrite plus_IZR. lra.
Qed.
Definition in_box (poly : list point) : Prop := Forall (fun p => 0 <= px p <= 32767 /\ 0 <= py p <= 32767) poly.
Definition small_polys (v : ivor) : Prop := forall l, In l (iv_iter v) -> in_box (fast_polygon l).
Lemma fast_polygon_in w h l : 0 <= w <= 32767 -> 0 <= h <= 32767 -> Forall (in_frame w h) l -> Forall (in_image w h) (fast_polygon l).
Proof.
  intros Hw Hh F. apply Forall_forall. intros p J. destruct (push_In _ _ _ J) as [[]|K]. apply in_map_iff in K. destruct K as (c & <- & Ic).
  rewrite Forall_forall in F. destruct (F c Ic) as (F1 & F2 & B1 & B2). unfold in_image. cbn [px py]. split; apply fast_coord; assumption.
Qed.
Lemma framed_small im v : 0 <= fi_w im <= 32767 -> 0 <= fi_h im <= 32767 -> framed im v -> small_polys v.
Proof.
  intros Hw Hh F l I. eapply Forall_impl; [|apply (fast_polygon_in (fi_w im) (fi_h im)); [exact Hw|exact Hh|apply F, I]]. intros p [A B]. lia.
Qed.
Lemma coords_inj a : forall b, in_box a -> in_box b -> poly_coords a = poly_coords b -> a = b.
Proof.
  induction a as [|p a IH]; intros [|q b] A B; cbn [poly_coords flat_map app]; intros E; try discriminate; [reflexivity|].
  inversion A as [|? ? A1 A2]; subst. inversion B as [|? ? B1 B2]; subst. injection E as E1 E2 E3. rewrite !i16_small in E1, E2 by lia. f_equal; [destruct p, q; cbn in *; congruence|apply IH; assumption].
Qed.
Lemma same_coords_eq a : forall b, same_coords a b = true <-> a = b.
Proof.
  induction a as [|x a IH]; intros [|y b]; cbn [same_coords]; try (split; [discriminate|discriminate]); [tauto|]. rewrite andb_true_iff, Z.eqb_eq, IH. split; [intros [-> ->]; reflexivity|intros [= -> ->]; auto].
Qed.

(** * Transparency *)
Definition pvalid (im : fimg) (e : pentry) : Prop := exists poly, in_box poly /\ q_coords e = poly_coords poly /\ poly_diff im poly = Some (q_fit e).
Definition pview_ok (im : fimg) (v : list (option pentry)) : Prop := forall e, In (Some e) v -> pvalid im e.

Record pls_ok (im : fimg) (s : pstate) : Prop := {
  plo_view : pview_ok im (ps_tris s);
  plo_next : forall e, In e (ps_next s) -> pvalid im e }.

Lemma poly_step_ok im alias s l : pls_ok im s -> in_box (fast_polygon l) ->
  match poly_step im alias s l with
  | None => 0 < Z.of_nat (length (ps_tris s)) < 2 ^ 63 -> poly_diff im (fast_polygon l) = None
  | Some s' => exists v, poly_diff im (fast_polygon l) = Some v /\ pls_ok im s' /\ ps_diff s' = fadd (ps_diff s) v /\ length (ps_tris s') = length (ps_tris s)
  end.
Proof.
  intros [V N] Bx. unfold poly_step. set (poly := fast_polygon l) in *. cbv zeta.
  destruct (znth (ps_tris s) (cache_index (Z.of_nat (length (ps_tris s))) (poly_hash (poly_coords poly)))) as [data|] eqn:Ed.
  2:{ intros L. exfalso. destruct (znth_lt (ps_tris s) _ (cache_index_range (Z.of_nat (length (ps_tris s))) (poly_hash (poly_coords poly)) L)) as (x & Ex). congruence. }
  assert (K : forall e, pvalid im e -> q_coords e = poly_coords poly ->
     exists v, poly_diff im poly = Some v /\
      pls_ok im (PS (fadd (ps_diff s) (q_fit e)) (ps_next s ++ [e]) (if alias then set_nth (length (ps_next s)) (Some e) (ps_tris s) else ps_tris s)) /\
      fadd (ps_diff s) (q_fit e) = fadd (ps_diff s) v /\
      length (if alias then set_nth (length (ps_next s)) (Some e) (ps_tris s) else ps_tris s) = length (ps_tris s)).
  { intros e Hv E1. destruct Hv as (p0 & B0 & E0 & D0) eqn:Ev. clear Ev. assert (p0 = poly) by (apply coords_inj; congruence). subst p0. exists (q_fit e). split; [exact D0|].
    assert (Hv' : pvalid im e) by (exists poly; auto).
    assert (Hl : length (if alias then set_nth (length (ps_next s)) (Some e) (ps_tris s) else ps_tris s) = length (ps_tris s)) by (destruct alias; [apply set_nth_length|reflexivity]).
    split; [|auto]. constructor; cbn [ps_tris ps_next].
    - destruct alias; [|exact V]. intros x Hx. apply In_set_nth' in Hx as [[= ->]|Hx]; [exact Hv'|apply V, Hx].
    - intros x Hx. apply in_app_or in Hx as [Hx|[<-|[]]]; [apply N, Hx|exact Hv']. }
  assert (M : match poly_diff im poly with
              | None => True
              | Some diff => forall h, pvalid im (PEntry (poly_coords poly) diff h) end)
    by (destruct (poly_diff im poly) eqn:E; [intros h; exists poly; auto|exact I]).
  destruct data as [e|].
  - destruct (same_coords (q_coords e) (poly_coords poly)) eqn:Ee.
    + cbn [ps_diff ps_tris]. apply K; [apply V, (znth_In _ _ _ Ed)|apply same_coords_eq, Ee].
    + destruct (poly_diff im poly) eqn:Et; [|intros _; reflexivity]. cbn [ps_diff ps_tris]. apply K; [apply M|reflexivity].
  - destruct (poly_diff im poly) eqn:Et; [|intros _; reflexivity]. cbn [ps_diff ps_tris]. apply K; [apply M|reflexivity].
Qed.

Lemma poly_steps_ok im alias ls : (forall l, In l ls -> in_box (fast_polygon l)) -> forall s, pls_ok im s ->
  match foldM (poly_step im alias) ls s with
  | None => 0 < Z.of_nat (length (ps_tris s)) < 2 ^ 63 -> foldM (fun d l => option_map (fadd d) (poly_diff im (fast_polygon l))) ls (ps_diff s) = None
  | Some s' => foldM (fun d l => option_map (fadd d) (poly_diff im (fast_polygon l))) ls (ps_diff s) = Some (ps_diff s') /\ pls_ok im s'
  end.
Proof.
  intros Bx. induction ls as [|t ls IH]; intros s Hs; cbn [foldM]; [auto|].
  pose proof (poly_step_ok im alias s t Hs (Bx t (or_introl eq_refl))) as H. destruct (poly_step im alias s t) as [s'|].
  - destruct H as (v & Ev & Hs' & E1 & E3). rewrite Ev. cbn [option_map]. rewrite <- E1, <- E3. apply IH; [|exact Hs']. intros l I. apply Bx. right. exact I.
  - intros L. rewrite (H L). reflexivity.
Qed.

Lemma calc_poly_plain im alias tris v : pview_ok im tris -> small_polys v ->
  match calc_poly im alias tris v with
  | None => 0 < Z.of_nat (length tris) < 2 ^ 63 -> plain_pfitness im v = None
  | Some (f, next) => plain_pfitness im v = Some f /\ forall e, In e next -> pvalid im e
  end.
Proof.
  intros V Bx. unfold calc_poly, plain_pfitness, plain_psum.
  pose proof (poly_steps_ok im alias (iv_iter v) Bx (PS f0 [] tris)) as H. cbn [ps_diff ps_tris] in H.
  assert (Hs : pls_ok im (PS f0 [] tris)) by (constructor; cbn [ps_tris ps_next]; [exact V|intros e []]).
  specialize (H Hs). destruct (foldM (poly_step im alias) (iv_iter v) (PS f0 [] tris)) as [s|]; cbn [option_map].
  - destruct H as [E Hs']. rewrite E. split; [reflexivity|apply Hs'].
  - intros L. rewrite (H L). reflexivity.
Qed.

(** * The parallel evaluator and the one without cache *)
Definition pstrip (p : ppar) : keeper ivor := Bare (map (fun f => (pf_tri f, pf_base f)) (pp_funs p)) (pp_order p).
Record ppar_ok (im : fimg) (p : ppar) : Prop := {
  ppo_arrs : forall a, In a (pp_arrs p) -> pview_ok im a;
  ppo_own : forall f l, In f (pp_funs p) -> pf_cache f = QOwn l -> forall e, In e l -> pvalid im e }.

Lemma pcache_view_ok im p f v alias : ppar_ok im p -> In f (pp_funs p) -> pcache_view (pp_arrs p) (pf_cache f) = Some (v, alias) -> pview_ok im v.
Proof.
  intros [Ha Ho] Hf. destruct (pf_cache f) as [|l|k] eqn:Ec; cbn [pcache_view].
  - intros [= <- <-] e [H|[H|[]]]; discriminate.
  - intros [= <- <-] e H. apply in_map_iff in H as (x & [= ->] & H). apply (Ho f l Hf Ec e H).
  - destruct (nth_error (pp_arrs p) k) as [a|] eqn:En; [|discriminate]. cbn. intros [= <- <-]. apply Ha, (nth_error_In _ _ En).
Qed.

Lemma b_at_pstrip p i : b_at (pstrip p) i = option_map (fun x => (fst x, (pf_tri (snd x), pf_base (snd x)))) (pat_pos p i).
Proof.
  unfold b_at, pat_pos, pstrip. cbn [b_order b_funs]. destruct (nth_error (pp_order p) i) as [id|]; [|reflexivity].
  rewrite nth_error_map. destruct (nth_error (pp_funs p) id); reflexivity.
Qed.
Lemma pat_pos_In p i id f : pat_pos p i = Some (id, f) -> nth_error (pp_order p) i = Some id /\ nth_error (pp_funs p) id = Some f /\ In f (pp_funs p).
Proof.
  unfold pat_pos. destruct (nth_error (pp_order p) i) as [k|]; [|discriminate]. destruct (nth_error (pp_funs p) k) eqn:E; cbn [option_map]; [|discriminate].
  intros [= <- <-]. split; [reflexivity|]. split; [exact E|apply (nth_error_In _ _ E)].
Qed.
Lemma ppar_ok_set im p id f : ppar_ok im p -> (forall l e, pf_cache f = QOwn l -> In e l -> pvalid im e) ->
  ppar_ok im (PPar (set_nth id f (pp_funs p)) (pp_order p) (pp_arrs p) (pp_cur p)).
Proof.
  intros [Ha Ho] Hf. constructor; cbn [pp_arrs pp_funs]; [exact Ha|]. intros g l Hg El e He.
  apply In_set_nth' in Hg as [->|Hg]; [apply (Hf l e El He)|apply (Ho g l Hg El e He)].
Qed.

Lemma pupdate_fold_ok im view : forall arr arr', pview_ok im arr -> pview_ok im view ->
  foldM (fun a (d : option pentry) => match d with None => None | Some e => zset a (q_hash e) (Some e) end) view arr = Some arr' ->
  pview_ok im arr' /\ length arr' = length arr.
Proof.
  induction view as [|d view IH]; intros arr arr' Ha Hv; cbn [foldM]; [intros [= <-]; auto|].
  destruct d as [e|]; [|discriminate]. destruct (zset arr (q_hash e) (Some e)) as [arr1|] eqn:E.
  - unfold zset in E. destruct (znth arr (q_hash e)); [|discriminate]. injection E as <-. intros H. apply IH in H.
    + rewrite set_nth_length in H. exact H.
    + intros x Hx. apply In_set_nth' in Hx as [[= ->]|Hx]; [apply Hv; left; reflexivity|apply Ha, Hx].
    + intros x Hx. apply Hv. right. exact Hx.
  - discriminate.
Qed.

Section Psim.
Context (im : fimg) (srt : sorter) (hsrt : point -> list point -> option (list point)).
Notation ea := (pparallel im srt hsrt). Notation eb := (vor_ev im srt hsrt). Notation next := (next_vor im srt hsrt).

Lemma pcalc_sim p i pts muts p' v : ppar_ok im p -> (forall d, b_next next (pstrip p) i pts muts = Some d -> small_polys d) -> ev_calc ea p i pts muts = Some (p', v) ->
  ppar_ok im p' /\ ev_calc eb (pstrip p) i pts muts = Some (pstrip p', v).
Proof.
  intros Hp. unfold b_next, vor_ev. cbn [pparallel keep_ev ev_calc]. unfold ppar_calc. rewrite b_at_pstrip. destruct (pat_pos p i) as [[id f]|] eqn:Ea; [|discriminate]. cbn [option_map fst snd].
  destruct (pat_pos_In _ _ _ _ Ea) as (E1 & E2 & E3).
  destruct (match pf_base f with Some b => (b =? id)%nat | None => false end) eqn:Es; [discriminate|].
  cbn [pstrip b_funs]. set (base := match pf_base f with None => None | Some b => match nth_error (pp_funs p) b with None => None | Some g => pf_tri g end end).
  replace (match pf_base f with None => None | Some b => match nth_error (map (fun f0 => (pf_tri f0, pf_base f0)) (pp_funs p)) b with None => None | Some g => fst g end end) with base
    by (unfold base; destruct (pf_base f) as [b|]; [|reflexivity]; rewrite nth_error_map; destruct (nth_error (pp_funs p) b); reflexivity).
  unfold calc_pfun. destruct (next_vor im srt hsrt (pf_tri f) base pts muts) as [d|]; [|discriminate]. intros Sm. specialize (Sm d eq_refl).
  destruct (pcache_view (pp_arrs p) (pf_cache f)) as [[w alias]|] eqn:Ev; [|discriminate].
  pose proof (calc_poly_plain im alias w d (pcache_view_ok im p f w alias Hp E3 Ev) Sm) as H.
  destruct (calc_poly im alias w d) as [[fit nx]|]; [|discriminate]. destruct H as [H1 H2]. rewrite H1. cbn [option_map fst snd].
  intros [= <- <-]. split.
  - apply ppar_ok_set; [exact Hp|]. cbn [pf_cache]. intros l e [= <-] He. apply H2, He.
  - unfold pstrip. cbn [pp_funs pp_order]. rewrite map_set_nth. reflexivity.
Qed.
Lemma pupd_sim p i p' : ppar_ok im p -> ev_update ea p i = Some p' -> ppar_ok im p' /\ ev_update eb (pstrip p) i = Some (pstrip p').
Proof.
  intros Hp. unfold vor_ev. cbn [pparallel keep_ev ev_update]. unfold ppar_update. rewrite b_at_pstrip. destruct (pat_pos p i) as [[id f]|] eqn:Ea; [|discriminate]. cbn [option_map fst snd].
  destruct (pat_pos_In _ _ _ _ Ea) as (E1 & E2 & E3).
  destruct (pcache_view (pp_arrs p) (pf_cache f)) as [[v alias]|] eqn:Ev; [|discriminate].
  destruct (nth_error (pp_arrs p) (pp_cur p)) as [arr|] eqn:En; [|discriminate].
  destruct (foldM _ v arr) as [arr'|] eqn:Ef; [|discriminate]. cbn [option_map]. intros [= <-].
  pose proof (pupdate_fold_ok im v arr arr' (ppo_arrs _ _ Hp _ (nth_error_In _ _ En)) (pcache_view_ok im p f v alias Hp E3 Ev) Ef) as [Ha' _].
  split.
  - destruct Hp as [Ha Ho]. constructor; cbn [pp_arrs pp_funs].
    + intros a Hx. apply In_set_nth' in Hx as [->|Hx]; [exact Ha'|apply Ha, Hx].
    + intros g l Hg El e He. apply In_set_nth' in Hg as [->|Hg]; [discriminate El|apply (Ho g l Hg El e He)].
  - unfold pstrip. cbn [pp_funs pp_order]. rewrite map_set_nth. cbn [pf_tri pf_base].
    match goal with |- Some (Bare ?a _) = Some (Bare ?b _) => enough (H : a = b) by (f_equal; f_equal; exact H) end.
    clear - E2. revert id E2. induction (pp_funs p) as [|g l IH]; intros [|id]; cbn; try discriminate; [intros [= ->]; reflexivity|].
    intros H. rewrite <- (IH id H). reflexivity.
Qed.
Lemma pprep_sim p p' : ppar_ok im p -> ev_prepare ea p = Some p' -> ppar_ok im p' /\ ev_prepare eb (pstrip p) = Some (pstrip p').
Proof. intros Hp. cbn [pparallel ev_prepare ppar_prepare]. intros [= <-]. split; [destruct Hp as [Ha Ho]; constructor; assumption|reflexivity]. Qed.
Lemma pbase_sim p i j p' : ppar_ok im p -> ev_base ea p i j = Some p' -> ppar_ok im p' /\ ev_base eb (pstrip p) i j = Some (pstrip p').
Proof.
  intros Hp. unfold vor_ev. cbn [pparallel keep_ev ev_base]. unfold ppar_base. rewrite !b_at_pstrip. destruct (pat_pos p i) as [[id f]|] eqn:Ea; [|discriminate].
  destruct (pat_pos p j) as [[jd g]|] eqn:Eb; [|discriminate]. cbn [option_map fst snd]. intros [= <-].
  destruct (pat_pos_In _ _ _ _ Ea) as (E1 & E2 & E3). split.
  - apply ppar_ok_set; [exact Hp|]. cbn [pf_cache]. intros l e El He. apply (ppo_own _ _ Hp f l E3 El e He).
  - unfold pstrip. cbn [pp_funs pp_order b_funs b_order]. rewrite map_set_nth. reflexivity.
Qed.
Lemma pswap_sim p i j p' : ppar_ok im p -> ev_swap ea p i j = Some p' -> ppar_ok im p' /\ ev_swap eb (pstrip p) i j = Some (pstrip p').
Proof.
  intros Hp. unfold vor_ev. cbn [pparallel keep_ev ev_swap]. unfold ppar_swap. cbn [pstrip b_order]. destruct (swap_at i j (pp_order p)) as [o|]; [|discriminate]. cbn [option_map]. intros [= <-].
  split; [destruct Hp as [Ha Ho]; constructor; assumption|reflexivity].
Qed.
Lemma pstep_sim p fs o p' fs' : ppar_ok im p -> (forall i pts muts d, o = OCalc i pts muts -> b_next next (pstrip p) i pts muts = Some d -> small_polys d) ->
  eop_step ea (p, fs) o = Some (p', fs') -> ppar_ok im p' /\ eop_step eb (pstrip p, fs) o = Some (pstrip p', fs').
Proof.
  intros Hp Sm. destruct o as [i pts muts|i| |i j|i j]; cbn [eop_step].
  - destruct (ev_calc ea p i pts muts) as [[q v]|] eqn:E; [|discriminate]. cbn [option_map fst snd]. intros [= <- <-].
    destruct (pcalc_sim p i pts muts q v Hp (fun d => Sm i pts muts d eq_refl) E) as [A ->]. auto.
  - destruct (ev_update ea p i) as [q|] eqn:E; [|discriminate]. cbn [option_map]. intros [= <- <-]. destruct (pupd_sim p i q Hp E) as [A ->]. auto.
  - destruct (ev_prepare ea p) as [q|] eqn:E; [|discriminate]. cbn [option_map]. intros [= <- <-]. destruct (pprep_sim p q Hp E) as [A ->]. auto.
  - destruct (ev_base ea p i j) as [q|] eqn:E; [|discriminate]. cbn [option_map]. intros [= <- <-]. destruct (pbase_sim p i j q Hp E) as [A ->]. auto.
  - destruct (ev_swap ea p i j) as [q|] eqn:E; [|discriminate]. cbn [option_map]. intros [= <- <-]. destruct (pswap_sim p i j q Hp E) as [A ->]. auto.
Qed.
End Psim.

Lemma new_pparallel_ok im n k : ppar_ok im (new_pparallel n k) /\ pstrip (new_pparallel n k) = new_keeper ivor n.
Proof.
  split.
  - constructor; cbn [new_pparallel pp_arrs pp_funs].
    + intros a [<-|[<-|[]]] e He; apply repeat_spec in He; discriminate.
    + intros f l Hf. apply repeat_spec in Hf. subst f. discriminate.
  - unfold pstrip, new_keeper, new_pparallel. cbn [pp_funs pp_order].
    enough (H : map (fun f => (pf_tri f, pf_base f)) (repeat new_pfun n) = repeat (None, None) n) by (f_equal; exact H).
    induction n as [|n IH]; [reflexivity|]. cbn [repeat map]. f_equal. exact IH.
Qed.
