(** The caches add no panics when Calculate and Update alternate. *)
From Coq Require Import ZArith List Bool Lia Arith Permutation.
From Verif Require Import GoNum M_Norm M_Slice M_Geom M_Image M_Raster M_Delaunay M_Algo M_Fitness S_Fitness L_PMap L_Algo2 L_Fit.
Import ListNotations.
Open Scope Z_scope.

Definition hr (N : Z) (e : entry) : Prop := 0 <= e_hash e < N.
Definition views (N : Z) (v : list (option entry)) : Prop := forall e, In (Some e) v -> hr N e.

Lemma tri_step_hash im alias N s t s' : views N (l_tris s) -> (forall e, In e (l_next s) -> hr N e) ->
  0 < Z.of_nat (length (l_tris s)) <= N -> N < 2 ^ 63 -> tri_step im alias s t = Some s' ->
  views N (l_tris s') /\ (forall e, In e (l_next s') -> hr N e) /\ length (l_tris s') = length (l_tris s).
Proof.
  intros Hv Hn Hl HN. unfold tri_step.
  pose proof (cache_index_range (Z.of_nat (length (l_tris s))) (tri_hash (d_a t) (d_b t) (d_c t)) ltac:(lia)) as Hi.
  set (i := cache_index _ _) in *. destruct (znth (l_tris s) i) as [data|] eqn:Ed; [|discriminate].
  assert (K : forall e, hr N e ->
     views N (if alias then set_nth (length (l_next s)) (Some e) (l_tris s) else l_tris s) /\ (forall x, In x (l_next s ++ [e]) -> hr N x) /\
     length (if alias then set_nth (length (l_next s)) (Some e) (l_tris s) else l_tris s) = length (l_tris s)).
  { intros e He. split; [|split].
    - destruct alias; [|exact Hv]. intros x Hx. apply In_set_nth' in Hx as [[= ->]|Hx]; [exact He|apply Hv, Hx].
    - intros x Hx. apply in_app_or in Hx as [Hx|[<-|[]]]; [apply Hn, Hx|exact He].
    - destruct alias; [apply set_nth_length|reflexivity]. }
  assert (M : forall diff, hr N (Entry (d_a t) (d_b t) (d_c t) diff i)) by (intros diff; unfold hr; cbn [e_hash]; lia).
  destruct data as [e|].
  - destruct (entry_eq e (d_a t) (d_b t) (d_c t)).
    + intros [= <-]. cbn [l_tris l_next]. apply K, Hv, (znth_In _ _ _ Ed).
    + destruct (tri_diff im (d_a t) (d_b t) (d_c t)); [|discriminate]. intros [= <-]. cbn [l_tris l_next]. apply K, M.
  - destruct (tri_diff im (d_a t) (d_b t) (d_c t)); [|discriminate]. intros [= <-]. cbn [l_tris l_next]. apply K, M.
Qed.
Lemma calc_tri_hash im alias N v d f next : views N v -> 0 < Z.of_nat (length v) <= N -> N < 2 ^ 63 -> calc_tri im alias v d = Some (f, next) ->
  forall e, In e next -> hr N e.
Proof.
  intros Hv Hl HN. unfold calc_tri. destruct (foldM _ _ _) as [s|] eqn:E; [|discriminate]. intros [= _ <-].
  enough (H : forall ts s0 s1, views N (l_tris s0) -> (forall e, In e (l_next s0) -> hr N e) -> 0 < Z.of_nat (length (l_tris s0)) <= N ->
     foldM (tri_step im alias) ts s0 = Some s1 -> forall e, In e (l_next s1) -> hr N e)
    by (apply (H _ (LS f0 f0 [] v) s Hv (fun e (h : In e []) => match h with end) Hl E)).
  clear - HN. induction ts as [|t ts IH]; intros s0 s1 Hv Hn Hl; cbn [foldM]; [intros [= <-]; exact Hn|].
  destruct (tri_step im alias s0 t) as [s'|] eqn:E; [|discriminate].
  destruct (tri_step_hash im alias N s0 t s' Hv Hn Hl HN E) as (A & B & C). rewrite <- C in Hl. apply (IH s' s1 A B Hl).
Qed.

(** [dirty id]: the function id was calculated since its last update. *)
Record turn_ok (N : Z) (D : nat -> bool) (p : par) : Prop := {
  tn_two : length (p_arrs p) = 2%nat;
  tn_cur : (p_cur p < 2)%nat;
  tn_arr : forall a, In a (p_arrs p) -> Z.of_nat (length a) = N /\ views N a;
  tn_ord : NoDup (p_order p);
  tn_fun : forall id f, nth_error (p_funs p) id = Some f ->
    if D id then exists l, tf_cache f = COwn l /\ forall e, In e l -> hr N e
    else tf_cache f = CInit \/ exists k, tf_cache f = CArr k /\ (k < 2)%nat }.

Definition upd (D : nat -> bool) (i : nat) (b : bool) (j : nat) : bool := if (i =? j)%nat then b else D j.
Lemma map_upd D l : forall i id b, NoDup l -> nth_error l i = Some id -> map (upd D id b) l = set_nth i b (map D l).
Proof.
  induction l as [|x l IH]; intros [|i] id b Hn; cbn [nth_error map set_nth]; try discriminate.
  - intros [= ->]. inversion Hn as [|? ? Hx Hl]. unfold upd at 1. rewrite Nat.eqb_refl. f_equal. apply map_ext_in. intros j Hj. unfold upd.
    destruct (id =? j)%nat eqn:E; [|reflexivity]. apply Nat.eqb_eq in E. subst j. contradiction.
  - intros H. inversion Hn as [|? ? Hx Hl]. rewrite (IH i id b Hl H). f_equal. unfold upd. destruct (id =? x)%nat eqn:E; [|reflexivity].
    apply Nat.eqb_eq in E. exfalso. apply Hx. rewrite <- E. apply (nth_error_In _ _ H).
Qed.
Lemma swap_at_map {A B} (g : A -> B) i j l : swap_at i j (map g l) = option_map (map g) (swap_at i j l).
Proof.
  unfold swap_at. rewrite !nth_error_map. destruct (nth_error l i), (nth_error l j); try reflexivity. cbn [option_map]. rewrite !map_set_nth. reflexivity.
Qed.

Lemma update_fold_some N view : forall arr, Z.of_nat (length arr) = N -> (forall x, In x view -> exists e, x = Some e /\ hr N e) -> views N arr ->
  exists arr', foldM (fun a (d : option entry) => match d with None => None | Some e => zset a (e_hash e) (Some e) end) view arr = Some arr' /\
    Z.of_nat (length arr') = N /\ views N arr'.
Proof.
  induction view as [|d view IH]; intros arr Hl Hv Ha; cbn [foldM]; [eauto|].
  destruct (Hv d (or_introl eq_refl)) as (e & -> & He). destruct (znth_lt arr (e_hash e)) as (x & Ex); [unfold hr in He; lia|].
  unfold zset at 1. rewrite Ex. apply IH.
  - rewrite set_nth_length. exact Hl.
  - intros y Hy. apply Hv. right. exact Hy.
  - intros y Hy. apply In_set_nth' in Hy as [[= ->]|Hy]; [exact He|apply Ha, Hy].
Qed.

Lemma set_fun_ok N D p id f b arrs cur : turn_ok N D p -> length arrs = 2%nat -> (cur < 2)%nat -> (forall a, In a arrs -> Z.of_nat (length a) = N /\ views N a) ->
  (if b : bool then exists l, tf_cache f = COwn l /\ forall e, In e l -> hr N e
    else tf_cache f = CInit \/ exists k, tf_cache f = CArr k /\ (k < 2)%nat) ->
  turn_ok N (upd D id b) (Par (set_nth id f (p_funs p)) (p_order p) arrs cur).
Proof.
  intros [T1 T2 T3 T4 T5] H1 H2 H3 H4. constructor; cbn [p_arrs p_cur p_order p_funs]; try assumption.
  intros jd g. rewrite nth_error_set_nth. unfold upd. destruct (id =? jd)%nat; [|apply T5].
  destruct (jd <? length (p_funs p))%nat; [|discriminate]. intros [= <-]. exact H4.
Qed.

(** The dirty positions after one operation, if it keeps the alternation. *)
Definition turn (dl : list bool) (o : eop) : option (list bool) :=
  match o with
  | OCalc i _ _ => match nth_error dl i with Some false => Some (set_nth i true dl) | _ => None end
  | OUpdate i => match nth_error dl i with Some true => Some (set_nth i false dl) | _ => None end
  | OSwap i j => swap_at i j dl
  | _ => Some dl
  end.
Lemma alternating_turn dl o r : alternating dl (o :: r) -> exists dl', turn dl o = Some dl' /\ alternating dl' r.
Proof.
  destruct o as [i pts muts|i| |i j|i j]; cbn [alternating turn]; eauto.
  - intros [-> H]. eauto.
  - intros [-> H]. eauto.
  - destruct (swap_at i j dl); [eauto|contradiction].
Qed.

Lemma par_step_turn im srt N D p fs o b' dl' : 2 <= N < 2 ^ 63 -> par_ok im p -> turn_ok N D p -> turn (map D (p_order p)) o = Some dl' ->
  eop_step (bare_ev im srt) (strip p, fs) o = Some b' ->
  exists p' fs' D', eop_step (parallel im srt) (p, fs) o = Some (p', fs') /\ turn_ok N D' p' /\ map D' (p_order p') = dl'.
Proof.
  intros HN Hp HT. pose proof HT as [T1 T2 T3 T4 T5].
  destruct o as [i pts muts|i| |i j|i j]; unfold bare_ev; cbn [turn eop_step parallel keep_ev ev_calc ev_update ev_prepare ev_base ev_swap].
  - destruct (nth_error (map D (p_order p)) i) as [[|]|] eqn:Ad; try discriminate. intros [= <-]. unfold par_calc. rewrite b_at_strip. destruct (at_pos p i) as [[id f]|] eqn:Ea; [|discriminate]. cbn [option_map fst snd].
    destruct (at_pos_In _ _ _ _ Ea) as (E1 & E2 & E3). rewrite nth_error_map, E1 in Ad. injection Ad as Ad.
    destruct (match tf_base f with Some b => (b =? id)%nat | None => false end) eqn:Es; [discriminate|].
    cbn [strip b_funs]. set (base := match tf_base f with None => None | Some b => match nth_error (p_funs p) b with None => None | Some g => tf_tri g end end).
    replace (match tf_base f with None => None | Some b => match nth_error (map (fun f0 => (tf_tri f0, tf_base f0)) (p_funs p)) b with None => None | Some g => fst g end end) with base
      by (unfold base; destruct (tf_base f) as [b|]; [|reflexivity]; rewrite nth_error_map; destruct (nth_error (p_funs p) b); reflexivity).
    unfold calc_fun. destruct (next_tri im srt (tf_tri f) base pts muts) as [d|]; [|discriminate].
    pose proof (T5 id f E2) as Hc. rewrite Ad in Hc.
    assert (Hview : exists v, cache_view (p_arrs p) (tf_cache f) = Some (v, false) /\ 0 < Z.of_nat (length v) <= N /\ views N v).
    { destruct Hc as [-> | (k & -> & Hk)]; cbn [cache_view].
      - eexists. split; [reflexivity|]. split; [cbn; lia|]. intros e [H|[H|[]]]; discriminate.
      - destruct (nth_error (p_arrs p) k) as [a|] eqn:Ek; [|apply nth_error_None in Ek; lia]. cbn [option_map]. exists a.
        destruct (T3 a (nth_error_In _ _ Ek)) as [L1 L2]. split; [reflexivity|]. split; [lia|exact L2]. }
    destruct Hview as (v & Ev & Lv & Vv). rewrite Ev.
    pose proof (calc_tri_plain im false v d (cache_view_ok im p f v false Hp E3 Ev)) as H.
    destruct (calc_tri im false v d) as [[fit next]|] eqn:Ec.
    + intros _. do 3 eexists. split; [reflexivity|]. split; [|cbn [fst p_order]; apply (map_upd D (p_order p) i id true T4 E1)].
      cbn [fst]. apply (set_fun_ok N D p id); [exact HT|exact T1|exact T2|exact T3|]. cbn [tf_cache]. exists next. split; [reflexivity|].
      apply (calc_tri_hash im false N v d fit next Vv Lv ltac:(lia) Ec).
    + rewrite (H ltac:(lia)). discriminate.
  - destruct (nth_error (map D (p_order p)) i) as [[|]|] eqn:Ad; try discriminate. intros [= <-]. unfold par_update. rewrite b_at_strip. destruct (at_pos p i) as [[id f]|] eqn:Ea; [|discriminate]. cbn [option_map fst snd].
    destruct (at_pos_In _ _ _ _ Ea) as (E1 & E2 & E3). rewrite nth_error_map, E1 in Ad. injection Ad as Ad. intros _.
    pose proof (T5 id f E2) as Hc. rewrite Ad in Hc. destruct Hc as (l & Ecl & Hl). rewrite Ecl. cbn [cache_view].
    destruct (nth_error (p_arrs p) (p_cur p)) as [arr|] eqn:En; [|apply nth_error_None in En; lia].
    destruct (T3 arr (nth_error_In _ _ En)) as [L1 L2].
    destruct (update_fold_some N (map Some l) arr L1) as (arr' & Ef & L3 & L4); [|exact L2|].
    { intros x Hx. apply in_map_iff in Hx as (e & <- & He). exists e. split; [reflexivity|apply Hl, He]. }
    rewrite Ef. cbn [option_map]. do 3 eexists. split; [reflexivity|].
    split; [|cbn [p_order]; apply (map_upd D (p_order p) i id false T4 E1)].
    apply set_fun_ok; [exact HT|rewrite set_nth_length; exact T1|exact T2| |right; exists (p_cur p); split; [reflexivity|exact T2]].
    intros a Hx. apply In_set_nth' in Hx as [->|Hx]; [split; assumption|apply T3, Hx].
  - intros [= <-] _. cbn [par_prepare option_map]. do 3 eexists. split; [reflexivity|]. split; [|reflexivity].
    constructor; cbn [p_arrs p_cur p_order p_funs]; try assumption. lia.
  - intros [= <-]. unfold par_base. rewrite !b_at_strip. destruct (at_pos p i) as [[id f]|] eqn:Ea; [|discriminate].
    destruct (at_pos p j) as [[jd g]|] eqn:Eb; [|discriminate]. cbn [option_map fst snd]. intros _.
    destruct (at_pos_In _ _ _ _ Ea) as (E1 & E2 & E3). exists (Par (set_nth id (TF (tf_tri f) match tf_tri g with None => None | Some _ => Some jd end (tf_cache f)) (p_funs p)) (p_order p) (p_arrs p) (p_cur p)), fs, D.
    split; [reflexivity|]. split; [|reflexivity]. constructor; cbn [p_arrs p_cur p_order p_funs]; try assumption.
    intros kd k. rewrite nth_error_set_nth. destruct (id =? kd)%nat eqn:Ek; [|apply T5]. apply Nat.eqb_eq in Ek. subst kd.
    destruct (id <? length (p_funs p))%nat; [|discriminate]. intros [= <-]. cbn [tf_cache]. apply (T5 id f E2).
  - unfold par_swap. cbn [strip b_order]. rewrite swap_at_map. destruct (swap_at i j (p_order p)) as [o|] eqn:Eo; [|discriminate]. cbn [option_map]. intros [= <-] _.
    do 3 eexists. split; [reflexivity|]. cbn [p_order]. split; [|reflexivity].
    constructor; cbn [p_arrs p_cur p_order p_funs]; try assumption. apply (Permutation_NoDup (Permutation_sym (swap_at_perm _ _ _ _ Eo)) T4).
Qed.

Lemma par_run_turn im srt N ops : 2 <= N < 2 ^ 63 -> forall p fs D b', par_ok im p -> turn_ok N D p -> alternating (map D (p_order p)) ops ->
  foldM (eop_step (bare_ev im srt)) ops (strip p, fs) = Some b' -> foldM (eop_step (parallel im srt)) ops (p, fs) <> None.
Proof.
  intros HN. induction ops as [|o ops IH]; intros p fs D b' Hp HT HA; cbn [foldM]; [discriminate|].
  destruct (eop_step (bare_ev im srt) (strip p, fs) o) as [b1|] eqn:E; [|discriminate].
  destruct (alternating_turn _ _ _ HA) as (dl' & Tn & A').
  destruct (par_step_turn im srt N D p fs o b1 dl' HN Hp HT Tn E) as (p' & fs' & D' & E1 & T' & <-).
  rewrite E1. destruct (par_step_sim im srt p fs o p' fs' Hp E1) as [P' E2]. rewrite E in E2. injection E2 as ->. intros H. apply (IH p' fs' D' b' P' T' A' H).
Qed.

Lemma new_turn_ok n k : turn_ok (Z.of_nat (Nat.pow 2 k)) (fun _ => false) (new_parallel n k).
Proof.
  constructor; cbn [new_parallel p_arrs p_cur p_order p_funs]; [reflexivity|lia| |apply seq_NoDup|].
  - intros a Ha. assert (E : a = repeat None (Nat.pow 2 k)) by (destruct Ha as [<-|[<-|[]]]; reflexivity). subst a.
    split; [rewrite repeat_length; reflexivity|]. intros e He. apply repeat_spec in He. discriminate.
  - intros id f H. left. apply nth_error_In, repeat_spec in H. subst f. reflexivity.
Qed.
