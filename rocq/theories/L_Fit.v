(** Cache look-ups and transparency of the caches. *)
From Coq Require Import ZArith List Bool Lia Arith.
From Verif Require Import GoNum M_Norm M_Slice M_Geom M_Image M_Raster M_Delaunay M_Algo M_Fitness S_Fitness L_PMap.
Import ListNotations.
Open Scope Z_scope.

(** * The index *)
Lemma land_le a b : 0 <= b -> 0 <= Z.land a b <= b.
Proof.
  intros Hb. split; [apply Z.land_nonneg; right; exact Hb|].
  assert (H : Z.ldiff (Z.land a b) b = 0).
  { apply Z.bits_inj'. intros n Hn. rewrite Z.ldiff_spec, Z.land_spec, Z.bits_0. destruct (Z.testbit a n), (Z.testbit b n); reflexivity. }
  pose proof (Z.sub_nocarry_ldiff b (Z.land a b) H) as E.
  assert (N : 0 <= Z.ldiff b (Z.land a b)) by (apply Z.ldiff_nonneg; left; exact Hb). lia.
Qed.
Lemma u64_small z : 0 <= z < 2 ^ 64 -> u64 z = z.
Proof. intros H. unfold u64, wrapu. apply Z.mod_small. exact H. Qed.
Lemma cache_index_range len hash : 0 < len < 2 ^ 63 -> 0 <= cache_index len hash < len.
Proof.
  intros H. unfold cache_index. rewrite (u64_small len) by lia. rewrite u64_small by lia.
  pose proof (land_le hash (len - 1) ltac:(lia)) as L. unfold u32, wrapu.
  pose proof (Z.mod_pos_bound (Z.land hash (len - 1)) (2 ^ 32) ltac:(lia)) as M.
  pose proof (Z.mod_le (Z.land hash (len - 1)) (2 ^ 32) ltac:(lia) ltac:(lia)) as M'. lia.
Qed.

(** * Transparency *)
Definition valid (im : fimg) (e : entry) : Prop := tri_diff im (e_p e) (e_q e) (e_s e) = Some (e_fit e).
Definition view_ok (im : fimg) (v : list (option entry)) : Prop := forall e, In (Some e) v -> valid im e.

Lemma In_set_nth' {A} (l : list A) i v x : In x (set_nth i v l) -> x = v \/ In x l.
Proof. revert i. induction l as [|a l IH]; intros [|i]; cbn; try tauto. - intros [<-|I]; auto. - intros [<-|I]; auto. apply IH in I. tauto. Qed.

Lemma entry_eq_true e a b c : entry_eq e a b c = true -> e_p e = a /\ e_q e = b /\ e_s e = c.
Proof.
  unfold entry_eq, peq. rewrite !andb_true_iff, !Z.eqb_eq. destruct e as [[? ?] [? ?] [? ?] ? ?], a, b, c; cbn. intros [[[-> ->] [-> ->]] [-> ->]]. auto.
Qed.

Record ls_ok (im : fimg) (s : lstate) : Prop := {
  lo_view : view_ok im (l_tris s);
  lo_next : forall e, In e (l_next s) -> valid im e }.

Lemma tri_step_ok im alias s t : ls_ok im s ->
  match tri_step im alias s t with
  | None => 0 < Z.of_nat (length (l_tris s)) < 2 ^ 63 -> tri_diff im (d_a t) (d_b t) (d_c t) = None
  | Some s' => exists v, tri_diff im (d_a t) (d_b t) (d_c t) = Some v /\ ls_ok im s' /\
      l_diff s' = fadd (l_diff s) v /\ l_area s' = fadd (l_area s) (tri_area (d_a t) (d_b t) (d_c t)) /\ length (l_tris s') = length (l_tris s)
  end.
Proof.
  intros [V N]. unfold tri_step.
  destruct (znth (l_tris s) (cache_index (Z.of_nat (length (l_tris s))) (tri_hash (d_a t) (d_b t) (d_c t)))) as [data|] eqn:Ed.
  2:{ intros L. exfalso. destruct (znth_lt (l_tris s) _ (cache_index_range (Z.of_nat (length (l_tris s))) (tri_hash (d_a t) (d_b t) (d_c t)) L)) as (x & Ex). congruence. }
  assert (K : forall e, valid im e -> e_p e = d_a t /\ e_q e = d_b t /\ e_s e = d_c t ->
     exists v, tri_diff im (d_a t) (d_b t) (d_c t) = Some v /\
      ls_ok im (LS (fadd (l_diff s) (e_fit e)) (fadd (l_area s) (tri_area (d_a t) (d_b t) (d_c t))) (l_next s ++ [e])
         (if alias then set_nth (length (l_next s)) (Some e) (l_tris s) else l_tris s)) /\
      fadd (l_diff s) (e_fit e) = fadd (l_diff s) v /\ fadd (l_area s) (tri_area (d_a t) (d_b t) (d_c t)) = fadd (l_area s) (tri_area (d_a t) (d_b t) (d_c t)) /\
      length (if alias then set_nth (length (l_next s)) (Some e) (l_tris s) else l_tris s) = length (l_tris s)).
  { intros e Ve (E1 & E2 & E3). unfold valid in Ve. rewrite E1, E2, E3 in Ve. exists (e_fit e). split; [exact Ve|].
    assert (Hv : valid im e) by (unfold valid; rewrite E1, E2, E3; exact Ve).
    assert (Hl : length (if alias then set_nth (length (l_next s)) (Some e) (l_tris s) else l_tris s) = length (l_tris s)) by (destruct alias; [apply set_nth_length|reflexivity]).
    split; [|auto]. constructor; cbn [l_tris l_next].
    - destruct alias; [|exact V]. intros x Hx. apply In_set_nth' in Hx as [[= ->]|Hx]; [exact Hv|apply V, Hx].
    - intros x Hx. apply in_app_or in Hx as [Hx|[<-|[]]]; [apply N, Hx|exact Hv]. }
  assert (M : match tri_diff im (d_a t) (d_b t) (d_c t) with
              | None => True
              | Some diff => forall h, valid im (Entry (d_a t) (d_b t) (d_c t) diff h) end)
    by (destruct (tri_diff im (d_a t) (d_b t) (d_c t)) eqn:E; [intros h; unfold valid; cbn [e_p e_q e_s e_fit]; exact E|exact I]).
  destruct data as [e|].
  - destruct (entry_eq e (d_a t) (d_b t) (d_c t)) eqn:Ee.
    + cbn [l_diff l_area l_tris]. apply K; [apply V, (znth_In _ _ _ Ed)|apply entry_eq_true, Ee].
    + destruct (tri_diff im (d_a t) (d_b t) (d_c t)) eqn:Et; [|intros _; reflexivity]. cbn [l_diff l_area l_tris]. apply K; [apply M|repeat split].
  - destruct (tri_diff im (d_a t) (d_b t) (d_c t)) eqn:Et; [|intros _; reflexivity]. cbn [l_diff l_area l_tris]. apply K; [apply M|repeat split].
Qed.

Lemma tri_steps_ok im alias ts : forall s, ls_ok im s ->
  match foldM (tri_step im alias) ts s with
  | None => 0 < Z.of_nat (length (l_tris s)) < 2 ^ 63 -> foldM (fun (da : f64 * f64) t => match tri_diff im (d_a t) (d_b t) (d_c t) with None => None
       | Some v => Some (fadd (fst da) v, fadd (snd da) (tri_area (d_a t) (d_b t) (d_c t))) end) ts (l_diff s, l_area s) = None
  | Some s' => foldM (fun (da : f64 * f64) t => match tri_diff im (d_a t) (d_b t) (d_c t) with None => None
       | Some v => Some (fadd (fst da) v, fadd (snd da) (tri_area (d_a t) (d_b t) (d_c t))) end) ts (l_diff s, l_area s) = Some (l_diff s', l_area s') /\ ls_ok im s'
  end.
Proof.
  induction ts as [|t ts IH]; intros s Hs; cbn [foldM]; [auto|].
  pose proof (tri_step_ok im alias s t Hs) as H. destruct (tri_step im alias s t) as [s'|].
  - destruct H as (v & Ev & Hs' & E1 & E2 & E3). rewrite Ev. cbn [fst snd]. rewrite <- E1, <- E2, <- E3. apply IH, Hs'.
  - intros L. rewrite (H L). reflexivity.
Qed.

Lemma calc_tri_plain im alias v d : view_ok im v ->
  match calc_tri im alias v d with
  | None => 0 < Z.of_nat (length v) < 2 ^ 63 -> plain_fitness im d = None
  | Some (f, next) => plain_fitness im d = Some f /\ forall e, In e next -> valid im e
  end.
Proof.
  intros V. unfold calc_tri, plain_fitness, plain_sums.
  pose proof (tri_steps_ok im alias (iter_triangles d) (LS f0 f0 [] v)) as H. cbn [l_diff l_area l_tris] in H.
  assert (Hs : ls_ok im (LS f0 f0 [] v)) by (constructor; cbn [l_tris l_next]; [exact V|intros e []]).
  specialize (H Hs). destruct (foldM (tri_step im alias) (iter_triangles d) (LS f0 f0 [] v)) as [s|].
  - destruct H as [E Hs']. rewrite E. split; [reflexivity|apply Hs'].
  - intros L. rewrite (H L). reflexivity.
Qed.
(** A view that is empty because there were no triangles is only read if there are some. *)
Lemma calc_tri_none im alias v d : iter_triangles d = [] -> exists f, calc_tri im alias v d = Some (f, []) /\ plain_fitness im d = Some f.
Proof. intros E. unfold calc_tri, plain_fitness, plain_sums. rewrite E. cbn [foldM l_diff l_area l_next]. eauto. Qed.

Lemma map_set_nth {A B} (g : A -> B) i x l : map g (set_nth i x l) = set_nth i (g x) (map g l).
Proof. revert i. induction l as [|a l IH]; intros [|i]; cbn; [reflexivity..|]. rewrite IH. reflexivity. Qed.

(** * The parallel evaluator and the one without cache *)
Definition strip (p : par) : bare := Bare (map (fun f => (tf_tri f, tf_base f)) (p_funs p)) (p_order p).
Record par_ok (im : fimg) (p : par) : Prop := {
  po_arrs : forall a, In a (p_arrs p) -> view_ok im a;
  po_own : forall f l, In f (p_funs p) -> tf_cache f = COwn l -> forall e, In e l -> valid im e }.

Lemma cache_view_ok im p f v alias : par_ok im p -> In f (p_funs p) -> cache_view (p_arrs p) (tf_cache f) = Some (v, alias) -> view_ok im v.
Proof.
  intros [Ha Ho] Hf. destruct (tf_cache f) as [|l|k] eqn:Ec; cbn [cache_view].
  - intros [= <- <-] e [H|[H|[]]]; discriminate.
  - intros [= <- <-] e H. apply in_map_iff in H as (x & [= ->] & H). apply (Ho f l Hf Ec e H).
  - destruct (nth_error (p_arrs p) k) as [a|] eqn:En; [|discriminate]. cbn. intros [= <- <-]. apply Ha, (nth_error_In _ _ En).
Qed.

Lemma b_at_strip p i : b_at (strip p) i = option_map (fun x => (fst x, (tf_tri (snd x), tf_base (snd x)))) (at_pos p i).
Proof.
  unfold b_at, at_pos, strip. cbn [b_order b_funs]. destruct (nth_error (p_order p) i) as [id|]; [|reflexivity].
  rewrite nth_error_map. destruct (nth_error (p_funs p) id); reflexivity.
Qed.
Lemma at_pos_In p i id f : at_pos p i = Some (id, f) -> nth_error (p_order p) i = Some id /\ nth_error (p_funs p) id = Some f /\ In f (p_funs p).
Proof.
  unfold at_pos. destruct (nth_error (p_order p) i) as [k|]; [|discriminate]. destruct (nth_error (p_funs p) k) eqn:E; cbn [option_map]; [|discriminate].
  intros [= <- <-]. split; [reflexivity|]. split; [exact E|apply (nth_error_In _ _ E)].
Qed.
Lemma par_ok_set im p id f : par_ok im p -> (forall l e, tf_cache f = COwn l -> In e l -> valid im e) ->
  par_ok im (Par (set_nth id f (p_funs p)) (p_order p) (p_arrs p) (p_cur p)).
Proof.
  intros [Ha Ho] Hf. constructor; cbn [p_arrs p_funs]; [exact Ha|]. intros g l Hg El e He.
  apply In_set_nth' in Hg as [->|Hg]; [apply (Hf l e El He)|apply (Ho g l Hg El e He)].
Qed.

Lemma update_fold_ok im view : forall arr arr', view_ok im arr -> view_ok im view ->
  foldM (fun a (d : option entry) => match d with None => None | Some e => zset a (e_hash e) (Some e) end) view arr = Some arr' ->
  view_ok im arr' /\ length arr' = length arr.
Proof.
  induction view as [|d view IH]; intros arr arr' Ha Hv; cbn [foldM]; [intros [= <-]; auto|].
  destruct d as [e|]; [|discriminate]. destruct (zset arr (e_hash e) (Some e)) as [arr1|] eqn:E.
  - unfold zset in E. destruct (znth arr (e_hash e)); [|discriminate]. injection E as <-. intros H. apply IH in H.
    + rewrite set_nth_length in H. exact H.
    + intros x Hx. apply In_set_nth' in Hx as [[= ->]|Hx]; [apply Hv; left; reflexivity|apply Ha, Hx].
    + intros x Hx. apply Hv. right. exact Hx.
  - discriminate.
Qed.

Lemma par_step_sim im srt p fs o p' fs' : par_ok im p -> eop_step (parallel im srt) (p, fs) o = Some (p', fs') ->
  par_ok im p' /\ eop_step (bare_ev im srt) (strip p, fs) o = Some (strip p', fs').
Proof.
  intros Hp. destruct o as [i pts muts|i| |i j|i j]; unfold bare_ev; cbn [eop_step parallel keep_ev ev_calc ev_update ev_prepare ev_base ev_swap].
  - unfold par_calc. rewrite b_at_strip. destruct (at_pos p i) as [[id f]|] eqn:Ea; [|discriminate]. cbn [option_map fst snd].
    destruct (at_pos_In _ _ _ _ Ea) as (E1 & E2 & E3).
    destruct (match tf_base f with Some b => (b =? id)%nat | None => false end) eqn:Es; [discriminate|].
    cbn [strip b_funs]. set (base := match tf_base f with None => None | Some b => match nth_error (p_funs p) b with None => None | Some g => tf_tri g end end).
    replace (match tf_base f with None => None | Some b => match nth_error (map (fun f0 => (tf_tri f0, tf_base f0)) (p_funs p)) b with None => None | Some g => fst g end end) with base
      by (unfold base; destruct (tf_base f) as [b|]; [|reflexivity]; rewrite nth_error_map; destruct (nth_error (p_funs p) b); reflexivity).
    unfold calc_fun. destruct (next_tri im srt (tf_tri f) base pts muts) as [d|]; [|discriminate].
    destruct (cache_view (p_arrs p) (tf_cache f)) as [[v alias]|] eqn:Ev; [|discriminate].
    pose proof (calc_tri_plain im alias v d (cache_view_ok im p f v alias Hp E3 Ev)) as H.
    destruct (calc_tri im alias v d) as [[fit next]|]; [|discriminate]. destruct H as [H1 H2]. rewrite H1. cbn [option_map fst snd].
    intros [= <- <-]. split.
    + apply par_ok_set; [exact Hp|]. cbn [tf_cache]. intros l e [= <-] He. apply H2, He.
    + unfold strip. cbn [p_funs p_order]. rewrite map_set_nth. reflexivity.
  - unfold par_update. rewrite b_at_strip. destruct (at_pos p i) as [[id f]|] eqn:Ea; [|discriminate]. cbn [option_map fst snd].
    destruct (at_pos_In _ _ _ _ Ea) as (E1 & E2 & E3).
    destruct (cache_view (p_arrs p) (tf_cache f)) as [[v alias]|] eqn:Ev; [|discriminate].
    destruct (nth_error (p_arrs p) (p_cur p)) as [arr|] eqn:En; [|discriminate].
    destruct (foldM _ v arr) as [arr'|] eqn:Ef; [|discriminate]. cbn [option_map]. intros [= <- <-].
    pose proof (update_fold_ok im v arr arr' (po_arrs _ _ Hp _ (nth_error_In _ _ En)) (cache_view_ok im p f v alias Hp E3 Ev) Ef) as [Ha' _].
    split.
    + destruct Hp as [Ha Ho]. constructor; cbn [p_arrs p_funs].
      * intros a Hx. apply In_set_nth' in Hx as [->|Hx]; [exact Ha'|apply Ha, Hx].
      * intros g l Hg El e He. apply In_set_nth' in Hg as [->|Hg]; [discriminate El|apply (Ho g l Hg El e He)].
    + unfold strip. cbn [p_funs p_order]. rewrite map_set_nth. cbn [tf_tri tf_base].
      match goal with |- Some (Bare ?a _, _) = Some (Bare ?b _, _) => enough (H : a = b) by (f_equal; f_equal; f_equal; exact H) end.
      clear - E2. revert id E2. induction (p_funs p) as [|g l IH]; intros [|id]; cbn; try discriminate; [intros [= ->]; reflexivity|].
      intros H. rewrite <- (IH id H). reflexivity.
  - cbn [par_prepare option_map]. intros [= <- <-]. split; [destruct Hp as [Ha Ho]; constructor; assumption|reflexivity].
  - unfold par_base. rewrite !b_at_strip. destruct (at_pos p i) as [[id f]|] eqn:Ea; [|discriminate].
    destruct (at_pos p j) as [[jd g]|] eqn:Eb; [|discriminate]. cbn [option_map fst snd]. intros [= <- <-].
    destruct (at_pos_In _ _ _ _ Ea) as (E1 & E2 & E3). split.
    + apply par_ok_set; [exact Hp|]. cbn [tf_cache]. intros l e El He. apply (po_own _ _ Hp f l E3 El e He).
    + unfold strip. cbn [p_funs p_order b_funs b_order]. rewrite map_set_nth. reflexivity.
  - unfold par_swap. cbn [strip b_order]. destruct (swap_at i j (p_order p)) as [o|]; [|discriminate]. cbn [option_map]. intros [= <- <-].
    split; [destruct Hp as [Ha Ho]; constructor; assumption|reflexivity].
Qed.

Lemma par_run_sim im srt ops : forall p fs p' fs', par_ok im p -> foldM (eop_step (parallel im srt)) ops (p, fs) = Some (p', fs') ->
  par_ok im p' /\ foldM (eop_step (bare_ev im srt)) ops (strip p, fs) = Some (strip p', fs').
Proof.
  induction ops as [|o ops IH]; intros p fs p' fs' Hp; cbn [foldM]; [intros [= <- <-]; auto|].
  destruct (eop_step (parallel im srt) (p, fs) o) as [[p1 fs1]|] eqn:E; [|discriminate]. intros H.
  destruct (par_step_sim im srt p fs o p1 fs1 Hp E) as [H1 H2]. rewrite H2. apply IH; assumption.
Qed.

Lemma new_parallel_ok im n k : par_ok im (new_parallel n k) /\ strip (new_parallel n k) = new_bare n.
Proof.
  split.
  - constructor; cbn [new_parallel p_arrs p_funs].
    + intros a [<-|[<-|[]]] e He; apply repeat_spec in He; discriminate.
    + intros f l Hf. apply repeat_spec in Hf. subst f. discriminate.
  - unfold strip, new_bare, new_keeper, new_parallel. cbn [p_funs p_order].
    enough (H : map (fun f => (tf_tri f, tf_base f)) (repeat new_tfun n) = repeat (None, None) n) by (f_equal; exact H).
    induction n as [|n IH]; [reflexivity|]. cbn [repeat map]. f_equal. exact IH.
Qed.
