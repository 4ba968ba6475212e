(** The caches of the polygon functions are transparent over whole sequences of operations,
    and add no panics when Calculate and Update alternate. *)
From Coq Require Import ZArith List Bool Lia Arith Permutation.
From Verif Require Import GoNum M_Norm M_Slice M_Geom M_Image M_Raster M_Delaunay M_Algo M_Fitness S_Fitness L_PMap L_Algo2 L_Fit L_Fit2 M_Voronoi M_Polygons S_Voronoi S_Polygons L_SimH L_Poly.
Import ListNotations.
Open Scope Z_scope.

Definition phr (N : Z) (e : pentry) : Prop := 0 <= q_hash e < N.
Definition pviews (N : Z) (v : list (option pentry)) : Prop := forall e, In (Some e) v -> phr N e.

Lemma poly_step_hash im alias N s t s' : pviews N (ps_tris s) -> (forall e, In e (ps_next s) -> phr N e) ->
  0 < Z.of_nat (length (ps_tris s)) <= N -> N < 2 ^ 63 -> poly_step im alias s t = Some s' ->
  pviews N (ps_tris s') /\ (forall e, In e (ps_next s') -> phr N e) /\ length (ps_tris s') = length (ps_tris s).
Proof.
  intros Hv Hn Hl HN. unfold poly_step.
  pose proof (cache_index_range (Z.of_nat (length (ps_tris s))) (poly_hash (poly_coords (fast_polygon t))) ltac:(lia)) as Hi.
  cbv zeta. set (i := cache_index _ _) in *. destruct (znth (ps_tris s) i) as [data|] eqn:Ed; [|discriminate].
  assert (K : forall e, phr N e ->
     pviews N (if alias then set_nth (length (ps_next s)) (Some e) (ps_tris s) else ps_tris s) /\ (forall x, In x (ps_next s ++ [e]) -> phr N x) /\
     length (if alias then set_nth (length (ps_next s)) (Some e) (ps_tris s) else ps_tris s) = length (ps_tris s)).
  { intros e He. split; [|split].
    - destruct alias; [|exact Hv]. intros x Hx. apply In_set_nth' in Hx as [[= ->]|Hx]; [exact He|apply Hv, Hx].
    - intros x Hx. apply in_app_or in Hx as [Hx|[<-|[]]]; [apply Hn, Hx|exact He].
    - destruct alias; [apply set_nth_length|reflexivity]. }
  assert (M : forall diff, phr N (PEntry (poly_coords (fast_polygon t)) diff i)) by (intros diff; unfold phr; cbn [q_hash]; lia).
  destruct data as [e|].
  - destruct (same_coords (q_coords e) (poly_coords (fast_polygon t))).
    + intros [= <-]. cbn [ps_tris ps_next]. apply K, Hv, (znth_In _ _ _ Ed).
    + destruct (poly_diff im (fast_polygon t)); [|discriminate]. intros [= <-]. cbn [ps_tris ps_next]. apply K, M.
  - destruct (poly_diff im (fast_polygon t)); [|discriminate]. intros [= <-]. cbn [ps_tris ps_next]. apply K, M.
Qed.
Lemma calc_poly_hash im alias N v d f next : pviews N v -> 0 < Z.of_nat (length v) <= N -> N < 2 ^ 63 -> calc_poly im alias v d = Some (f, next) ->
  forall e, In e next -> phr N e.
Proof.
  intros Hv Hl HN. unfold calc_poly. destruct (foldM _ _ _) as [s|] eqn:E; [|discriminate]. intros [= _ <-].
  enough (H : forall ts s0 s1, pviews N (ps_tris s0) -> (forall e, In e (ps_next s0) -> phr N e) -> 0 < Z.of_nat (length (ps_tris s0)) <= N ->
     foldM (poly_step im alias) ts s0 = Some s1 -> forall e, In e (ps_next s1) -> phr N e)
    by (apply (H _ (PS f0 [] v) s Hv (fun e (h : In e []) => match h with end) Hl E)).
  clear - HN. induction ts as [|t ts IH]; intros s0 s1 Hv Hn Hl; cbn [foldM]; [intros [= <-]; exact Hn|].
  destruct (poly_step im alias s0 t) as [s'|] eqn:E; [|discriminate].
  destruct (poly_step_hash im alias N s0 t s' Hv Hn Hl HN E) as (A & B & C). rewrite <- C in Hl. apply (IH s' s1 A B Hl).
Qed.

(** [dirty id]: the function id was calculated since its last update. *)
Record pturn_ok (N : Z) (D : nat -> bool) (p : ppar) : Prop := {
  ptn_two : length (pp_arrs p) = 2%nat;
  ptn_cur : (pp_cur p < 2)%nat;
  ptn_arr : forall a, In a (pp_arrs p) -> Z.of_nat (length a) = N /\ pviews N a;
  ptn_ord : NoDup (pp_order p);
  ptn_fun : forall id f, nth_error (pp_funs p) id = Some f ->
    if D id then exists l, pf_cache f = QOwn l /\ forall e, In e l -> phr N e
    else pf_cache f = QInit \/ exists k, pf_cache f = QArr k /\ (k < 2)%nat }.

Lemma pupdate_fold_some N view : forall arr, Z.of_nat (length arr) = N -> (forall x, In x view -> exists e, x = Some e /\ phr N e) -> pviews N arr ->
  exists arr', foldM (fun a (d : option pentry) => match d with None => None | Some e => zset a (q_hash e) (Some e) end) view arr = Some arr' /\
    Z.of_nat (length arr') = N /\ pviews N arr'.
Proof.
  induction view as [|d view IH]; intros arr Hl Hv Ha; cbn [foldM]; [eauto|].
  destruct (Hv d (or_introl eq_refl)) as (e & -> & He). destruct (znth_lt arr (q_hash e)) as (x & Ex); [unfold phr in He; lia|].
  unfold zset at 1. rewrite Ex. apply IH.
  - rewrite set_nth_length. exact Hl.
  - intros y Hy. apply Hv. right. exact Hy.
  - intros y Hy. apply In_set_nth' in Hy as [[= ->]|Hy]; [exact He|apply Ha, Hy].
Qed.

Lemma pset_fun_ok N D p id f b arrs cur : pturn_ok N D p -> length arrs = 2%nat -> (cur < 2)%nat -> (forall a, In a arrs -> Z.of_nat (length a) = N /\ pviews N a) ->
  (if b : bool then exists l, pf_cache f = QOwn l /\ forall e, In e l -> phr N e
    else pf_cache f = QInit \/ exists k, pf_cache f = QArr k /\ (k < 2)%nat) ->
  pturn_ok N (upd D id b) (PPar (set_nth id f (pp_funs p)) (pp_order p) arrs cur).
Proof.
  intros [T1 T2 T3 T4 T5] H1 H2 H3 H4. constructor; cbn [pp_arrs pp_cur pp_order pp_funs]; try assumption.
  intros jd g. rewrite nth_error_set_nth. unfold upd. destruct (id =? jd)%nat; [|apply T5].
  destruct (jd <? length (pp_funs p))%nat; [|discriminate]. intros [= <-]. exact H4.
Qed.

Section Pturn.
Context (im : fimg) (srt : sorter) (hsrt : point -> list point -> option (list point)).
Hypothesis Hw : 0 <= fi_w im <= 32767.
Hypothesis Hh : 0 <= fi_h im <= 32767.
Notation ea := (pparallel im srt hsrt). Notation eb := (vor_ev im srt hsrt). Notation eo := (vor_only im srt hsrt). Notation next := (next_vor im srt hsrt).

Lemma pstep_turn N D p fs o b' dl' : 2 <= N < 2 ^ 63 -> ppar_ok im p -> (forall i pts muts d, o = OCalc i pts muts -> b_next next (pstrip p) i pts muts = Some d -> small_polys d) -> pturn_ok N D p -> turn (map D (pp_order p)) o = Some dl' ->
  eop_step eb (pstrip p, fs) o = Some b' ->
  exists p' fs' D', eop_step ea (p, fs) o = Some (p', fs') /\ pturn_ok N D' p' /\ map D' (pp_order p') = dl'.
Proof.
  intros HN Hp Sm HT. pose proof HT as [T1 T2 T3 T4 T5].
  destruct o as [i pts muts|i| |i j|i j]; unfold vor_ev; cbn [turn eop_step pparallel keep_ev ev_calc ev_update ev_prepare ev_base ev_swap].
  - destruct (nth_error (map D (pp_order p)) i) as [[|]|] eqn:Ad; try discriminate. intros [= <-]. unfold ppar_calc. rewrite b_at_pstrip. destruct (pat_pos p i) as [[id f]|] eqn:Ea; [|discriminate]. cbn [option_map fst snd].
    destruct (pat_pos_In _ _ _ _ Ea) as (E1 & E2 & E3). rewrite nth_error_map, E1 in Ad. injection Ad as Ad.
    destruct (match pf_base f with Some b => (b =? id)%nat | None => false end) eqn:Es; [discriminate|].
    cbn [pstrip b_funs]. set (base := match pf_base f with None => None | Some b => match nth_error (pp_funs p) b with None => None | Some g => pf_tri g end end).
    replace (match pf_base f with None => None | Some b => match nth_error (map (fun f0 => (pf_tri f0, pf_base f0)) (pp_funs p)) b with None => None | Some g => fst g end end) with base
      by (unfold base; destruct (pf_base f) as [b|]; [|reflexivity]; rewrite nth_error_map; destruct (nth_error (pp_funs p) b); reflexivity).
    unfold calc_pfun. specialize (Sm i pts muts). unfold b_next in Sm. rewrite b_at_pstrip, Ea in Sm. cbn [option_map fst snd pstrip b_funs] in Sm.
    replace (match pf_base f with None => None | Some b => match nth_error (map (fun f0 => (pf_tri f0, pf_base f0)) (pp_funs p)) b with None => None | Some g => fst g end end) with base in Sm
      by (unfold base; destruct (pf_base f) as [b|]; [|reflexivity]; rewrite nth_error_map; destruct (nth_error (pp_funs p) b); reflexivity).
    destruct (next_vor im srt hsrt (pf_tri f) base pts muts) as [d|]; [|discriminate]. specialize (Sm d eq_refl eq_refl).
    pose proof (T5 id f E2) as Hc. rewrite Ad in Hc.
    assert (Hview : exists v, pcache_view (pp_arrs p) (pf_cache f) = Some (v, false) /\ 0 < Z.of_nat (length v) <= N /\ pviews N v).
    { destruct Hc as [-> | (k & -> & Hk)]; cbn [pcache_view].
      - eexists. split; [reflexivity|]. split; [cbn; lia|]. intros e [H|[H|[]]]; discriminate.
      - destruct (nth_error (pp_arrs p) k) as [a|] eqn:Ek; [|apply nth_error_None in Ek; lia]. cbn [option_map]. exists a.
        destruct (T3 a (nth_error_In _ _ Ek)) as [L1 L2]. split; [reflexivity|]. split; [lia|exact L2]. }
    destruct Hview as (v & Ev & Lv & Vv). rewrite Ev.
    pose proof (calc_poly_plain im false v d (pcache_view_ok im p f v false Hp E3 Ev) Sm) as H.
    destruct (calc_poly im false v d) as [[fit nx]|] eqn:Ec.
    + intros _. do 3 eexists. split; [reflexivity|]. split; [|cbn [fst pp_order]; apply (map_upd D (pp_order p) i id true T4 E1)].
      cbn [fst]. apply (pset_fun_ok N D p id); [exact HT|exact T1|exact T2|exact T3|]. cbn [pf_cache]. exists nx. split; [reflexivity|].
      apply (calc_poly_hash im false N v d fit nx Vv Lv ltac:(lia) Ec).
    + rewrite (H ltac:(lia)). discriminate.
  - destruct (nth_error (map D (pp_order p)) i) as [[|]|] eqn:Ad; try discriminate. intros [= <-]. unfold ppar_update. rewrite b_at_pstrip. destruct (pat_pos p i) as [[id f]|] eqn:Ea; [|discriminate]. cbn [option_map fst snd].
    destruct (pat_pos_In _ _ _ _ Ea) as (E1 & E2 & E3). rewrite nth_error_map, E1 in Ad. injection Ad as Ad. intros _.
    pose proof (T5 id f E2) as Hc. rewrite Ad in Hc. destruct Hc as (l & Ecl & Hl). rewrite Ecl. cbn [pcache_view].
    destruct (nth_error (pp_arrs p) (pp_cur p)) as [arr|] eqn:En; [|apply nth_error_None in En; lia].
    destruct (T3 arr (nth_error_In _ _ En)) as [L1 L2].
    destruct (pupdate_fold_some N (map Some l) arr L1) as (arr' & Ef & L3 & L4); [|exact L2|].
    { intros x Hx. apply in_map_iff in Hx as (e & <- & He). exists e. split; [reflexivity|apply Hl, He]. }
    rewrite Ef. cbn [option_map]. do 3 eexists. split; [reflexivity|].
    split; [|cbn [pp_order]; apply (map_upd D (pp_order p) i id false T4 E1)].
    apply pset_fun_ok; [exact HT|rewrite set_nth_length; exact T1|exact T2| |right; exists (pp_cur p); split; [reflexivity|exact T2]].
    intros a Hx. apply In_set_nth' in Hx as [->|Hx]; [split; assumption|apply T3, Hx].
  - intros [= <-] _. cbn [ppar_prepare option_map]. do 3 eexists. split; [reflexivity|]. split; [|reflexivity].
    constructor; cbn [pp_arrs pp_cur pp_order pp_funs]; try assumption. lia.
  - intros [= <-]. unfold ppar_base. rewrite !b_at_pstrip. destruct (pat_pos p i) as [[id f]|] eqn:Ea; [|discriminate].
    destruct (pat_pos p j) as [[jd g]|] eqn:Eb; [|discriminate]. cbn [option_map fst snd]. intros _.
    destruct (pat_pos_In _ _ _ _ Ea) as (E1 & E2 & E3). exists (PPar (set_nth id (PF (pf_tri f) match pf_tri g with None => None | Some _ => Some jd end (pf_cache f)) (pp_funs p)) (pp_order p) (pp_arrs p) (pp_cur p)), fs, D.
    split; [reflexivity|]. split; [|reflexivity]. constructor; cbn [pp_arrs pp_cur pp_order pp_funs]; try assumption.
    intros kd k. rewrite nth_error_set_nth. destruct (id =? kd)%nat eqn:Ek; [|apply T5]. apply Nat.eqb_eq in Ek. subst kd.
    destruct (id <? length (pp_funs p))%nat; [|discriminate]. intros [= <-]. cbn [pf_cache]. apply (T5 id f E2).
  - unfold ppar_swap. cbn [pstrip b_order]. rewrite swap_at_map. destruct (swap_at i j (pp_order p)) as [o|] eqn:Eo; [|discriminate]. cbn [option_map]. intros [= <-] _.
    do 3 eexists. split; [reflexivity|]. cbn [pp_order]. split; [|reflexivity].
    constructor; cbn [pp_arrs pp_cur pp_order pp_funs]; try assumption. apply (Permutation_NoDup (Permutation_sym (swap_at_perm _ _ _ _ Eo)) T4).
Qed.

(** Framed diagrams along the operations. *)
Definition framed_from (b : keeper ivor) (ops : list eop) : Prop :=
  forall ops1 ops2 fs b' fs', ops = ops1 ++ ops2 -> foldM (eop_step eo) ops1 (b, fs) = Some (b', fs') -> all_framed im b'.
Lemma step_only b fs o b' fs' gs : eop_step eb (b, fs) o = Some (b', fs') -> exists gs', eop_step eo (b, gs) o = Some (b', gs').
Proof.
  destruct o as [i pts muts|i| |i j|i j]; unfold vor_ev, vor_only; cbn [eop_step keep_ev ev_calc ev_update ev_prepare ev_base ev_swap].
  - destruct (b_at b i) as [[id [tri base]]|]; [|discriminate]. destruct (match base with Some _ => _ | None => false end); [discriminate|].
    destruct (next_vor _ _ _ _ _ _ _) as [d|]; [|discriminate]. destruct (plain_pfitness im d) as [f|]; [|discriminate]. cbn [option_map fst snd]. intros [= <- <-]. eauto.
  - destruct (option_map (fun _ => b) (b_at b i)) as [q|]; [|discriminate]. cbn [option_map]. intros [= <- <-]. eauto.
  - cbn [option_map]. intros [= <- <-]. eauto.
  - match goal with |- option_map _ ?x = _ -> _ => destruct x as [q|]; [|discriminate] end. cbn [option_map]. intros [= <- <-]. eauto.
  - match goal with |- option_map _ ?x = _ -> _ => destruct x as [q|]; [|discriminate] end. cbn [option_map]. intros [= <- <-]. eauto.
Qed.
Lemma framed_next b o ops fs b' fs' : framed_from b (o :: ops) -> eop_step eb (b, fs) o = Some (b', fs') -> framed_from b' ops.
Proof.
  intros F E ops1 ops2 gs b2 gs' -> R.
  assert (X : forall hs, exists hs', foldM (eop_step eo) ops1 (b', hs) = Some (b2, hs')).
  { clear - R. revert b' gs R. induction ops1 as [|o ops1 IH]; intros b' gs R hs; cbn [foldM] in *; [injection R as -> _; eauto|].
    destruct (eop_step eo (b', gs) o) as [[b3 g3]|] eqn:E; [|discriminate].
    assert (Y : exists h3, eop_step eo (b', hs) o = Some (b3, h3)).
    { clear - E. destruct o as [i pts muts|i| |i j|i j]; cbn [eop_step] in *;
        match goal with |- exists h3, option_map _ ?x = _ => destruct x as [q|]; [|discriminate] end; injection E as <- _; cbn [option_map]; eauto. }
    destruct Y as (h3 & ->). eapply IH; exact R. }
  destruct (step_only b fs o b' fs' [] E) as (g1 & E1). destruct (X g1) as (h' & R'). apply (F (o :: ops1) ops2 [] b2 h'); [reflexivity|]. cbn [foldM]. rewrite E1. exact R'.
Qed.
Lemma framed_calc b i pts muts ops : framed_from b (OCalc i pts muts :: ops) ->
  (forall id tri b0, b_at b i = Some (id, (tri, Some b0)) -> b0 <> id) -> forall d, b_next next b i pts muts = Some d -> small_polys d.
Proof.
  intros F N d. unfold b_next. destruct (b_at b i) as [[id [tri base]]|] eqn:Ea; [|discriminate]. intros E. apply (framed_small im d Hw Hh).
  apply (F [OCalc i pts muts] ops [] (Bare (set_nth id (Some d, None) (b_funs b)) (b_order b)) [f1] eq_refl) with (o := None).
  - unfold vor_only. cbn [foldM eop_step keep_ev ev_calc]. rewrite Ea.
    assert (X : match base with Some b' => (b' =? id)%nat | None => false end = false) by (destruct base as [b0|]; [apply Nat.eqb_neq, (N id tri b0 eq_refl)|reflexivity]).
    rewrite X. cbv zeta. rewrite E. reflexivity.
  - cbn [b_funs]. unfold b_at in Ea. destruct (nth_error (b_order b) i) as [x|]; [|discriminate]. destruct (nth_error (b_funs b) x) as [g|] eqn:Eg; [|discriminate]. injection Ea as <- ->.
    apply nth_error_In with x. rewrite nth_error_set_nth, Nat.eqb_refl. assert (L : (x < length (b_funs b))%nat) by (apply nth_error_Some; congruence). apply Nat.ltb_lt in L. rewrite L. reflexivity.
Qed.
Lemma calc_base p i pts muts r : ev_calc ea p i pts muts = Some r -> forall id tri b0, b_at (pstrip p) i = Some (id, (tri, Some b0)) -> b0 <> id.
Proof.
  cbn [pparallel ev_calc]. unfold ppar_calc. rewrite b_at_pstrip. destruct (pat_pos p i) as [[id f]|]; [|discriminate]. cbn [option_map fst snd]. intros E id' tri b0 [= <- _ Eb]. rewrite Eb in E.
  intros ->. rewrite Nat.eqb_refl in E. discriminate.
Qed.
Lemma calc_base' b i pts muts r : ev_calc eb b i pts muts = Some r -> forall id tri b0, b_at b i = Some (id, (tri, Some b0)) -> b0 <> id.
Proof.
  unfold vor_ev. cbn [keep_ev ev_calc]. destruct (b_at b i) as [[id [t base]]|]; [|discriminate]. intros E id' tri b0 [= <- <- ->]. intros ->. rewrite Nat.eqb_refl in E. discriminate.
Qed.

Lemma prun_sim ops : forall p fs p' fs', ppar_ok im p -> framed_from (pstrip p) ops -> foldM (eop_step ea) ops (p, fs) = Some (p', fs') ->
  ppar_ok im p' /\ foldM (eop_step eb) ops (pstrip p, fs) = Some (pstrip p', fs').
Proof.
  induction ops as [|o ops IH]; intros p fs p' fs' Hp F; cbn [foldM]; [intros [= <- <-]; auto|].
  destruct (eop_step ea (p, fs) o) as [[q gs]|] eqn:E; [|discriminate]. intros R.
  destruct (pstep_sim im srt hsrt p fs o q gs Hp) as [Hq E'].
  { intros i pts muts d ->. apply (framed_calc _ _ _ _ _ F). cbn [eop_step] in E. destruct (ev_calc ea p i pts muts) as [r|] eqn:Ec; [|discriminate]. eapply calc_base; exact Ec. }
  { exact E. }
  rewrite E'. apply (IH q gs p' fs' Hq); [|exact R]. eapply framed_next; [exact F|exact E'].
Qed.
Lemma prun_turn N ops : 2 <= N < 2 ^ 63 -> forall p fs D b', ppar_ok im p -> framed_from (pstrip p) ops -> pturn_ok N D p -> alternating (map D (pp_order p)) ops ->
  foldM (eop_step eb) ops (pstrip p, fs) = Some b' -> foldM (eop_step ea) ops (p, fs) <> None.
Proof.
  intros HN. induction ops as [|o ops IH]; intros p fs D b' Hp F HT HA; cbn [foldM]; [discriminate|].
  destruct (eop_step eb (pstrip p, fs) o) as [[b1 g1]|] eqn:E; [|discriminate].
  destruct (alternating_turn _ _ _ HA) as (dl' & Tn & A').
  assert (Sm : forall i pts muts d, o = OCalc i pts muts -> b_next next (pstrip p) i pts muts = Some d -> small_polys d).
  { intros i pts muts d ->. apply (framed_calc _ _ _ _ _ F). cbn [eop_step] in E. destruct (ev_calc eb (pstrip p) i pts muts) as [r|] eqn:Ec; [|discriminate]. eapply calc_base'; exact Ec. }
  destruct (pstep_turn N D p fs o (b1, g1) dl' HN Hp Sm HT Tn E) as (p' & fs' & D' & E1 & T' & <-).
  rewrite E1. destruct (pstep_sim im srt hsrt p fs o p' fs' Hp Sm E1) as [P' E2]. rewrite E in E2. injection E2 as -> ->. intros H.
  apply (IH p' fs' D' b' P'); [eapply framed_next; [exact F|exact E]|exact T'|exact A'|exact H].
Qed.
End Pturn.

Lemma new_pturn_ok n k : pturn_ok (Z.of_nat (Nat.pow 2 k)) (fun _ => false) (new_pparallel n k).
Proof.
  constructor; cbn [new_pparallel pp_arrs pp_cur pp_order pp_funs]; [reflexivity|lia| |apply seq_NoDup|].
  - intros a Ha. assert (E : a = repeat None (Nat.pow 2 k)) by (destruct Ha as [<-|[<-|[]]]; reflexivity). subst a.
    split; [rewrite repeat_length; reflexivity|]. intros e He. apply repeat_spec in He. discriminate.
  - intros id f H. left. apply nth_error_In, repeat_spec in H. subst f. reflexivity.
Qed.
