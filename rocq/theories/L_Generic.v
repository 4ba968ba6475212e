(** Runs over NewMany with functions that always return their first fitness. *)
From Coq Require Import ZArith List Bool Arith Lia Permutation.
From Flocq Require Import IEEE754.BinarySingleNaN.
From Verif Require Import GoNum M_Norm S_Norm M_Slice M_Geom M_Delaunay M_Algo S_Algo M_Fitness S_Fitness M_Voronoi M_Polygons M_Generic S_Generic S_PolyRun L_Algo L_Algo2 L_Algo3 L_PMap L_Fit.
Import ListNotations.

Section Frozen.
Context {A : Type} (calc : ffun A) (a0 : A) (good : list npoint -> Prop) (St : A -> f64 -> Prop).
Hypothesis Hnew : forall pts muts a f, good pts -> calc a0 pts muts = Some (a, f) -> St a f.
Hypothesis Hold : forall a f pts muts a' f', St a f -> calc a pts muts = Some (a', f') -> f' = f /\ St a' f.

Lemma calls_old l : forall a f fs, St a f -> calls calc a l = Some fs -> fs = repeat f (length l).
Proof.
  induction l as [|[pts muts] l IH]; intros a f fs H; cbn [calls length repeat]; [intros [= <-]; reflexivity|].
  destruct (calc a pts muts) as [[a' f']|] eqn:E; [|discriminate]. destruct (Hold _ _ _ _ _ _ H E) as [-> H'].
  destruct (calls calc a' l) as [gs|] eqn:G; [|discriminate]. intros [= <-]. f_equal. eapply IH; eassumption.
Qed.
Lemma calls_new pts muts l fs : good pts -> calls calc a0 ((pts, muts) :: l) = Some fs ->
  exists a f, calc a0 pts muts = Some (a, f) /\ fs = repeat f (S (length l)).
Proof.
  intros Hg. cbn [calls]. destruct (calc a0 pts muts) as [[a f]|] eqn:E; [|discriminate]. intros H. exists a, f. split; [reflexivity|].
  destruct (calls calc a l) as [gs|] eqn:G; [|discriminate]. injection H as <-. cbn [repeat]. f_equal. eapply calls_old; [eapply Hnew; eassumption|exact G].
Qed.

Notation ev := (many calc).
Section Acts.
Variable phi : nat -> f64.
Variable c0 : core (list A).
Definition ready i a : Prop := St a (phi i) \/
  (a = a0 /\ good (buf c0 (nth i (c_pop c0) 0%nat)) /\ forall a' f, calc a0 (buf c0 (nth i (c_pop c0) 0%nat)) (nth i (c_muts c0) []) = Some (a', f) -> f = phi i).
Definition all_ready (c : core (list A)) (r : results) : Prop :=
  c_store c = c_store c0 /\ c_pop c = c_pop c0 /\ c_muts c = c_muts c0 /\ length (c_ev c) = length (c_ev c0) /\
  (forall i a, nth_error (c_ev c) i = Some a -> ready i a) /\ (forall i f, In (i, f) r -> f = phi i).

Lemma act_ready a c r c' r' : all_ready c r -> do_act ev (c, r) a = Some (c', r') ->
  all_ready c' r' /\ (forall i x, nth_error (c_ev c) i = Some x -> St x (phi i) -> exists y, nth_error (c_ev c') i = Some y /\ St y (phi i)) /\
  (forall i, a = Calc i -> exists y, nth_error (c_ev c') i = Some y /\ St y (phi i)).
Proof.
  intros (R1 & R2 & R3 & R4 & R5 & R6). destruct a as [|i|i]; cbn [do_act ev_calc ev_prepare ev_update many].
  - intros [= <- <-]. split; [|split; [intros i x Hx Sx; exists x; auto|discriminate]]. unfold all_ready. repeat split; assumption.
  - destruct (nth_error (c_pop c) i) as [p|] eqn:Ep; [|discriminate]. destruct (nth_error (c_muts c) i) as [m|] eqn:Em; [|discriminate].
    destruct (nth_error (c_ev c) i) as [x|] eqn:Ex; [|discriminate]. destruct (calc x (buf c p) m) as [[y f]|] eqn:Ec; [|discriminate].
    cbn [option_map fst snd]. intros [= <- <-].
    assert (B : buf c p = buf c0 (nth i (c_pop c0) 0%nat) /\ m = nth i (c_muts c0) []).
    { unfold buf. rewrite R1, <- R2, <- R3. rewrite (nth_error_nth _ _ 0%nat Ep), (nth_error_nth _ _ [] Em). auto. }
    destruct B as [B1 B2].
    assert (K : St y (phi i) /\ f = phi i).
    { destruct (R5 i x Ex) as [Sx|(-> & Hg & Hf)].
      - destruct (Hold _ _ _ _ _ _ Sx Ec) as [-> Sy]. auto.
      - rewrite B1, B2 in Ec. pose proof (Hf _ _ Ec) as ->. split; [|reflexivity]. eapply Hnew; eassumption. }
    destruct K as [K1 K2]. assert (Li : (i < length (c_ev c))%nat) by (apply nth_error_Some; congruence).
    assert (N : forall j z, nth_error (set_nth i y (c_ev c)) j = Some z -> (j = i /\ z = y) \/ (j <> i /\ nth_error (c_ev c) j = Some z)).
    { intros j z. rewrite nth_error_set_nth. destruct (Nat.eqb_spec i j) as [->|Ne].
      - apply Nat.ltb_lt in Li. rewrite Li. intros [= <-]. auto.
      - right. split; [auto|assumption]. }
    assert (Ni : nth_error (set_nth i y (c_ev c)) i = Some y).
    { rewrite nth_error_set_nth, Nat.eqb_refl. apply Nat.ltb_lt in Li. rewrite Li. reflexivity. }
    split; [|split].
    + unfold all_ready. cbn [with_ev c_store c_pop c_muts c_ev]. rewrite set_nth_length. repeat split; try assumption.
      * intros j z Hz. apply N in Hz as [[-> ->]|[_ Hz]]; [left; exact K1|apply R5, Hz].
      * intros j g [[= <- <-]|Hin]; [exact K2|apply R6, Hin].
    + intros j z Hz Sz. cbn [with_ev c_ev]. destruct (Nat.eq_dec j i) as [->|Ne]; [exists y; split; assumption|]. exists z. split; [|exact Sz].
      rewrite nth_error_set_nth. destruct (Nat.eqb_spec i j); [congruence|exact Hz].
    + intros j [= <-]. cbn [with_ev c_ev]. exists y. split; assumption.
  - destruct (result r i) as [f|]; [|discriminate]. destruct (put i f (c_fits c)) as [fs|]; [|discriminate]. intros [= <- <-].
    split; [|split; [intros j x Hx Sx; exists x; auto|discriminate]]. unfold all_ready. repeat split; assumption.
Qed.
Lemma acts_ready s : forall c r c' r', all_ready c r -> do_acts ev s (c, r) = Some (c', r') ->
  all_ready c' r' /\ (forall i x, nth_error (c_ev c) i = Some x -> St x (phi i) -> exists y, nth_error (c_ev c') i = Some y /\ St y (phi i)) /\
  (forall i, In (Calc i) s -> exists y, nth_error (c_ev c') i = Some y /\ St y (phi i)).
Proof.
  induction s as [|a s IH]; intros c r c' r' R; cbn [do_acts].
  - intros [= <- <-]. split; [exact R|]. split; [intros i x Hx Sx; exists x; auto|intros i []].
  - destruct (do_act ev (c, r) a) as [[c1 r1]|] eqn:E; [|discriminate]. intros H. destruct (act_ready _ _ _ _ _ R E) as (R1 & K1 & K2).
    destruct (IH _ _ _ _ R1 H) as (R2 & L1 & L2). split; [exact R2|]. split.
    + intros i x Hx Sx. destruct (K1 i x Hx Sx) as (y & Hy & Sy). exact (L1 i y Hy Sy).
    + intros i [->|Hin]; [|exact (L2 i Hin)]. destruct (K2 i eq_refl) as (y & Hy & Sy). exact (L1 i y Hy Sy).
Qed.
End Acts.

Lemma valid_calc n s i : valid_schedule n s -> (i < n)%nat -> In (Calc i) s.
Proof.
  intros [H _] Hi. specialize (H (Calc i)). cbn beta iota in H. apply Nat.ltb_lt in Hi. rewrite Hi in H.
  eapply count_occ_In. rewrite H. lia.
Qed.
Lemma result_In r i f : result r i = Some f -> In (i, f) r.
Proof.
  unfold result. destruct (find _ r) as [[j g]|] eqn:E; [|discriminate]. cbn [option_map snd]. intros [= <-].
  apply find_some in E as [I E]. cbn [fst] in E. apply Nat.eqb_eq in E. subst j. exact I.
Qed.
Lemma swaps_ev sw : forall c c' : core (list A), do_swaps ev sw c = Some c' -> c_ev c' = c_ev c.
Proof.
  induction sw as [|[i j] sw IH]; intros c c'; cbn [do_swaps]; [intros [= <-]; reflexivity|].
  destruct (swap_members ev c (i, j)) as [c1|] eqn:E; [|discriminate]. intros H. apply IH in H. rewrite H. unfold swap_members in E.
  destruct (swap_at i j (c_fits c)); [|discriminate]. destruct (swap_at i j (c_pop c)); [|discriminate]. cbn [ev_swap many] in E. injection E as <-. reflexivity.
Qed.
Lemma update_ev sw (c c' : core (list A)) : update_fitnesses ev sw c = Some c' -> c_ev c' = c_ev c.
Proof.
  unfold update_fitnesses. destruct (do_swaps ev sw c) as [c1|] eqn:E; [|discriminate]. apply swaps_ev in E. unfold take_best.
  destruct (nth_error (c_pop c1) 0); [|discriminate]. destruct (nth_error (c_fits c1) 0); [|discriminate]. destruct (buf_set _ _ _); [|discriminate].
  intros [= <-]. exact E.
Qed.
Lemma copy_ev i j (c c' : core (list A)) : copy_member i j c = Some c' -> c_ev c' = c_ev c.
Proof.
  unfold copy_member. destruct (nth_error (c_newpop c) i); [|discriminate]. destruct (nth_error (c_pop c) j); [|discriminate]. destruct (put i [] (c_muts c)); [|discriminate].
  destruct (buf_set _ _ _); [|discriminate]. intros [= <-]. reflexivity.
Qed.
Lemma keep_ev' k : forall i (c c' : core (list A)), keep_bases k i c = Some c' -> c_ev c' = c_ev c.
Proof.
  induction k as [|k IH]; intros i c c'; cbn [keep_bases]; [intros [= <-]; reflexivity|]. destruct (copy_member i i c) as [c1|] eqn:E; [|discriminate].
  intros H. rewrite (IH _ _ _ H). eapply copy_ev, E.
Qed.
Lemma member_ev mu i j (c c' : core (list A)) : new_member ev mu i j c = Some c' -> c_ev c' = c_ev c.
Proof.
  unfold new_member. destruct (copy_member i j c) as [c1|] eqn:E; [|discriminate]. cbn [ev_base many]. destruct (nth_error (c_newpop c1) i) as [x|]; [|discriminate].
  destruct (mu i (buf c1 x)). intros [= <-]. cbn [with_ev c_ev]. eapply copy_ev, E.
Qed.
Lemma inner_ev mu lim k : forall j i (c c' : core (list A)) i', inner_loop ev mu k j i lim c = Some (c', i') -> c_ev c' = c_ev c.
Proof.
  induction k as [|k IH]; intros j i c c' i'; cbn [inner_loop]; [intros [= <- _]; reflexivity|]. destruct (i <? lim)%nat; [|intros [= <- _]; reflexivity].
  destruct (new_member ev mu i j c) as [c1|] eqn:E; [|discriminate]. intros H. rewrite (IH _ _ _ _ _ H). eapply member_ev, E.
Qed.
Lemma outer_ev mu cutoff lim k : forall i (c c' : core (list A)), outer_loop ev k mu cutoff i lim c = Some c' -> c_ev c' = c_ev c.
Proof.
  induction k as [|k IH]; intros i c c'; cbn [outer_loop]; (destruct (i <? lim)%nat; [|intros [= <-]; reflexivity]); [discriminate|].
  destruct (inner_loop ev mu cutoff 0 i lim c) as [[c1 i1]|] eqn:E; [|discriminate]. intros H. rewrite (IH _ _ _ H). eapply inner_ev, E.
Qed.
Lemma generation_ev mu cutoff lim (c c' : core (list A)) : new_generation ev mu cutoff lim c = Some c' -> c_ev c' = c_ev c.
Proof.
  unfold new_generation. destruct (keep_bases cutoff 0 c) as [c1|] eqn:E1; [|discriminate]. destruct (outer_loop ev lim mu cutoff cutoff lim c1) as [c2|] eqn:E2; [|discriminate].
  intros [= <-]. cbn [c_ev]. rewrite (outer_ev _ _ _ _ _ _ _ E2). eapply keep_ev', E1.
Qed.

(** After a generation the functions are stuck at [phi] and the fitnesses are those. *)
Definition stuck_at (n : nat) (phi : nat -> f64) (c : core (list A)) : Prop :=
  (forall i a, nth_error (c_ev c) i = Some a -> St a (phi i)) /\ length (c_ev c) = n /\ Permutation (c_fits c) (map phi (seq 0 n)).

Lemma fits_phi n (fs : list f64) (phi : nat -> f64) : length fs = n -> (forall i, (i < n)%nat -> nth i fs f0 = phi i) -> fs = map phi (seq 0 n).
Proof.
  intros L H. apply (nth_ext _ _ f0 (phi 0%nat)); [rewrite map_length, seq_length; exact L|]. intros i Hi. rewrite L in Hi.
  rewrite map_nth, seq_nth by exact Hi. apply H, Hi.
Qed.
Lemma perm_snd {X} (m : list X) (fs : list f64) m' fs' : length m = length fs -> length m' = length fs' ->
  Permutation (combine m fs) (combine m' fs') -> Permutation fs fs'.
Proof.
  intros L L' P. apply (Permutation_map snd) in P.
  assert (K : forall (u : list X) (v : list f64), length u = length v -> map snd (combine u v) = v).
  { induction u as [|x u IH]; intros [|y v] Huv; cbn in *; try discriminate; [reflexivity|]. f_equal. apply IH. congruence. }
  rewrite !K in P by assumption. exact P.
Qed.

Lemma gen_stuck n l phi s sw (c1 c2 c' : core (list A)) r : shape n l c1 -> in_square c1 -> valid_schedule n s -> length (c_ev c1) = n ->
  (forall i a, nth_error (c_ev c1) i = Some a -> ready phi c1 i a) ->
  do_acts ev s (c1, []) = Some (c2, r) -> update_fitnesses ev sw c2 = Some c' -> stuck_at n phi c'.
Proof.
  intros Sh Sq Hv Le Hr E U.
  assert (R0 : all_ready phi c1 c1 []) by (unfold all_ready; repeat split; auto; intros i f []).
  destruct (acts_ready phi c1 s c1 [] c2 r R0 E) as ((R1 & R2 & R3 & R4 & R5 & R6) & _ & L2).
  destruct (gather ev n s c1 c2 r Hv E) as (S & T1 & _). pose proof (static_shape _ l c1 c2 S Sh) as Sh2.
  destruct (finish ev sw c2 c' n l Sh2 (static_square c1 c2 S Sq) U) as (F1 & F2 & F3 & F4 & F5 & F6 & _).
  unfold stuck_at. rewrite (update_ev _ _ _ U). split; [|split; [congruence|]].
  - intros i a Ha. assert (Hi : (i < n)%nat) by (rewrite <- Le, <- R4; apply nth_error_Some; congruence).
    destruct (L2 i (valid_calc n s i Hv Hi)) as (y & Hy & Sy). congruence.
  - rewrite <- (fits_phi n (c_fits c2) phi (sh_fits _ _ _ Sh2)).
    + assert (Lm : forall c : core (list A), shape n l c -> length (members c) = length (c_fits c)).
      { intros c H. unfold members. rewrite map_length, (sh_pop _ _ _ H), (sh_fits _ _ _ H). reflexivity. }
      apply (perm_snd (members c') (c_fits c') (members c2) (c_fits c2)); [apply Lm, F1|apply Lm, Sh2|exact F6].
    + intros i Hi. apply (R6 i). apply result_In. apply (T1 i Hi).
Qed.

Variables cutoff n l : nat.
Hypothesis Hcut : cutoff <> 0%nat.
Hypothesis Hgood : forall pts, length pts = l -> Forall pt_in_unit pts -> good pts.
Notation run := (simple_run_on ev (new_many a0 n) cutoff n l).

Lemma step_stuck phi c mu s sw c' r : shape n l c -> in_square c -> stuck_at n phi c -> mutator_ok mu -> valid_schedule n s ->
  simple_step ev cutoff mu s sw c = Some (c', r) -> stuck_at n phi c'.
Proof.
  intros Sh Sq (K1 & K2 & K3) Hmu Hv. unfold simple_step. destruct (new_generation ev mu cutoff (length (c_pop c)) c) as [c1|] eqn:E1; [|discriminate].
  pose proof (generation_ev _ _ _ _ _ E1) as Ee. rewrite (sh_pop _ _ _ Sh) in E1.
  apply (new_generation_shape ev mu cutoff n n l c c1 Hcut Sh Sq Hmu) in E1 as (G1 & G2 & _).
  unfold simple_calc. destruct (length (c_pop c1) =? 0)%nat; [discriminate|]. destruct (do_acts ev s (c1, [])) as [[c2 r2]|] eqn:E2; [|discriminate].
  destruct (update_fitnesses ev sw c2) as [c3|] eqn:E3; cbn [option_map]; [|discriminate]. intros [= <- <-].
  apply (gen_stuck n l phi s sw c1 c2 c3 r2 G1 G2 Hv); try assumption; rewrite Ee; [exact K2|]. intros i a Ha. left. apply K1, Ha.
Qed.
Lemma new_stuck groups s sw c r : length groups = n -> Forall (fun g => length g = l /\ Forall pt_in_unit g) groups -> valid_schedule n s ->
  new_simple ev groups (new_many a0 n) s sw = Some (c, r) -> stuck_at n (fun i => match own_fitness calc a0 (nth i groups []) with Some f => f | None => f0 end) c.
Proof.
  intros Ln Hf Hv. set (phi := fun i => _). unfold new_simple. destruct (init_core groups (new_many a0 n)) as [c1|] eqn:E1; [|discriminate].
  destruct (init_core_spec groups (new_many a0 n) c1 l E1 Hf) as (G1 & G2 & G3 & G4 & G5 & G6 & G7). rewrite Ln in G1.
  unfold simple_calc. destruct (length (c_pop c1) =? 0)%nat; [discriminate|]. destruct (do_acts ev s (c1, [])) as [[c2 r2]|] eqn:E2; [|discriminate].
  destruct (update_fitnesses ev sw c2) as [c3|] eqn:E3; cbn [option_map]; [|discriminate]. intros [= <- <-].
  assert (Le : length (c_ev c1) = n) by (rewrite G5; apply repeat_length).
  apply (gen_stuck n l phi s sw c1 c2 c3 r2 G1 G2 Hv); try assumption. intros i a Ha.
  assert (Hi : (i < n)%nat) by (rewrite <- Le; apply nth_error_Some; congruence).
  assert (B : buf c1 (nth i (c_pop c1) 0%nat) = nth i groups []).
  { rewrite <- members_nth by (rewrite (sh_pop _ _ _ G1); exact Hi). rewrite G3. reflexivity. }
  right. rewrite B. rewrite G5 in Ha. apply nth_error_In, repeat_spec in Ha. split; [exact Ha|]. split.
  - rewrite Forall_forall in Hf. destruct (Hf (nth i groups []) ltac:(apply nth_In; lia)). apply Hgood; assumption.
  - rewrite G6. intros a' f Hc. unfold phi, own_fitness.
    rewrite nth_repeat in Hc. rewrite Hc. reflexivity.
Qed.

Lemma run_stuck c : run c -> shape n l c /\ in_square c /\ exists groups, length groups = n /\ Forall (fun g => length g = l /\ Forall pt_in_unit g) groups /\
  stuck_at n (fun i => match own_fitness calc a0 (nth i groups []) with Some f => f | None => f0 end) c.
Proof.
  induction 1 as [groups s sw c r Ln Hf Hv E _ _|c mu s sw c' r R (Sh & Sq & g & Lg & Fg & K) Hmu Hv E _ _].
  - pose proof Hv as Hv'. rewrite <- Ln in Hv'. destruct (new_simple_spec ev groups _ s sw c r l Hf Hv' E) as (S1 & S2 & _). rewrite Ln in S1. split; [exact S1|]. split; [exact S2|].
    exists groups. split; [exact Ln|]. split; [exact Hf|]. exact (new_stuck groups s sw c r Ln Hf Hv E).
  - destruct (simple_step_spec ev cutoff mu s sw n l c c' r Hcut Sh Sq Hmu Hv E) as (S1 & S2 & _). split; [exact S1|]. split; [exact S2|].
    exists g. split; [exact Lg|]. split; [exact Fg|]. exact (step_stuck _ c mu s sw c' r Sh Sq K Hmu Hv E).
Qed.
End Frozen.

(** * The functions of the package *)
Definition tri_stuck (im : fimg) (a : tfun) (f : f64) : Prop :=
  exists d next, a = TF (Some d) None (COwn next) /\ plain_fitness im d = Some f /\ forall e, In e next -> valid im e.
Lemma tri_alone_new im srt pts muts a f : tri_alone im srt new_tfun pts muts = Some (a, f) -> tri_stuck im a f.
Proof.
  unfold tri_alone, calc_fun, new_tfun. cbn [tf_tri tf_cache cache_view]. destruct (next_tri im srt None None pts muts) as [d|]; [|discriminate].
  pose proof (calc_tri_plain im false [None; None] d) as H. destruct (calc_tri im false [None; None] d) as [[g next]|]; [|discriminate]. intros [= <- <-].
  destruct H as [H1 H2]; [intros e [I|[I|[]]]; discriminate|]. exists d, next. auto.
Qed.
Lemma tri_alone_old im srt a f pts muts a' f' : tri_stuck im a f -> tri_alone im srt a pts muts = Some (a', f') -> f' = f /\ tri_stuck im a' f.
Proof.
  intros (d & next & -> & P & V). unfold tri_alone, calc_fun. cbn [tf_tri tf_cache cache_view next_tri].
  pose proof (calc_tri_plain im true (map Some next) d) as H. destruct (calc_tri im true (map Some next) d) as [[g nx]|]; [|discriminate]. intros [= <- <-].
  destruct H as [H1 H2]; [intros e I; apply in_map_iff in I as (x & [= ->] & I); apply V, I|]. rewrite P in H1. injection H1 as <-.
  split; [reflexivity|]. exists d, nx. auto.
Qed.
