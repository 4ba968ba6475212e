(** Without ties, the sort of the members has one result. *)
From Coq Require Import ZArith List Bool Arith Lia Permutation Sorting.Sorted.
From Verif Require Import GoNum M_Norm M_Slice M_Algo S_Algo S_Ties L_Slice L_Algo L_Algo2.
Import ListNotations.
Local Open Scope nat_scope.

Lemma nth_sorted {A} (P : A -> A -> Prop) d (l : list A) : (forall i j, i < j < length l -> P (nth i l d) (nth j l d)) -> StronglySorted P l.
Proof.
  induction l as [|a l IH]; intros H; constructor.
  - apply IH. intros i j L. apply (H (S i) (S j)). cbn. lia.
  - apply Forall_forall. intros x Hx. apply (In_nth _ _ d) in Hx as (k & Lk & <-). apply (H 0 (S k)). cbn. lia.
Qed.
Lemma map_sorted {A B} (P : B -> B -> Prop) (f : A -> B) l : StronglySorted P (map f l) -> StronglySorted (fun x y => P (f x) (f y)) l.
Proof.
  induction l as [|a l IH]; cbn; intros H; [constructor|]. inversion H as [|? ? H1 H2]; subst. constructor; [apply IH, H1|]. rewrite Forall_map in H2. exact H2.
Qed.
(** A strictly falling list is the only sorted permutation of itself. *)
Lemma falling_unique {A} (key : A -> f64) l1 : forall l2, Permutation l1 l2 -> StronglySorted (fun x y => flt (key y) (key x) = true) l1 -> StronglySorted (fun x y => flt (key x) (key y) = false) l2 -> l1 = l2.
Proof.
  induction l1 as [|x l1 IH]; intros l2 P S1 S2; [symmetry; apply Permutation_nil, P|]. destruct l2 as [|y l2]; [apply Permutation_sym, Permutation_nil in P; discriminate P|].
  inversion S1 as [|? ? T1 F1]; subst. inversion S2 as [|? ? T2 F2]; subst. rewrite Forall_forall in F1, F2.
  assert (D : x = y).
  { destruct (Permutation_in y (Permutation_sym P) (or_introl eq_refl)) as [D|Y]; [exact D|]. destruct (Permutation_in x P (or_introl eq_refl)) as [D|X]; [symmetry; exact D|]. specialize (F1 _ Y). specialize (F2 _ X). congruence. }
  subst y. f_equal. apply IH; [exact (Permutation_cons_inv P)|exact T1|exact T2].
Qed.
Lemma combine_fst {A B} (l : list A) : forall m : list B, length l = length m -> map fst (combine l m) = l.
Proof. induction l as [|a l IH]; intros [|b m] H; cbn in *; try discriminate; [reflexivity|]. f_equal. apply IH. lia. Qed.
Lemma combine_snd {A B} (l : list A) : forall m : list B, length l = length m -> map snd (combine l m) = m.
Proof. induction l as [|a l IH]; intros [|b m] H; cbn in *; try discriminate; [reflexivity|]. f_equal. apply IH. lia. Qed.

Section Ties.
Context {E X : Type} (ev : evaluator E) (ord : E -> list nat) (rest : E -> X).
Hypothesis whole : forall e e', ord e = ord e' -> rest e = rest e' -> e = e'.
Hypothesis h_calc : forall e i p m e' f, ev_calc ev e i p m = Some (e', f) -> ord e' = ord e.
Hypothesis h_upd : forall e i e', ev_update ev e i = Some e' -> ord e' = ord e.
Hypothesis h_prep : forall e e', ev_prepare ev e = Some e' -> ord e' = ord e.
Hypothesis h_base : forall e i j e', ev_base ev e i j = Some e' -> ord e' = ord e.
Hypothesis h_swap : forall e i j e', ev_swap ev e i j = Some e' -> swap_at i j (ord e) = Some (ord e') /\ rest e' = rest e.
Context (n : nat).
Definition lens (c : core E) : Prop := length (c_fits c) = n /\ length (c_pop c) = n /\ length (c_newpop c) = n /\ length (ord (c_ev c)) = n.

Lemma put_len {A} i (v : A) l l' : put i v l = Some l' -> length l' = length l.
Proof. unfold put. destruct (_ <? _); [|discriminate]. intros [= <-]. apply set_nth_length. Qed.
Lemma copy_lens i j c c' : lens c -> copy_member i j c = Some c' -> lens c'.
Proof.
  intros L. unfold copy_member. destruct (nth_error (c_newpop c) i); [|discriminate]. destruct (nth_error (c_pop c) j); [|discriminate]. destruct (put i [] (c_muts c)); [|discriminate]. destruct (buf_set _ _ _); [|discriminate]. intros [= <-]. exact L.
Qed.
Lemma member_lens mu i j c c' : lens c -> new_member ev mu i j c = Some c' -> lens c'.
Proof.
  intros L. unfold new_member. destruct (copy_member i j c) as [d|] eqn:D; [|discriminate]. apply copy_lens in D; [|exact L]. destruct (ev_base ev (c_ev d) i j) as [e|] eqn:B; [|discriminate]. destruct (nth_error (c_newpop d) i); [|discriminate]. destruct (mu i _). intros [= <-]. apply h_base in B. destruct D as (? & ? & ? & ?). unfold lens; cbn. rewrite B. auto.
Qed.
Lemma keep_lens m : forall i c c', lens c -> keep_bases m i c = Some c' -> lens c'.
Proof. induction m as [|m IH]; intros i c c' L; cbn [keep_bases]; [intros [= <-]; exact L|]. destruct (copy_member i i c) eqn:D; [|discriminate]. apply IH. exact (copy_lens _ _ _ _ L D). Qed.
Lemma inner_lens mu m : forall j i lim c c' k, lens c -> inner_loop ev mu m j i lim c = Some (c', k) -> lens c'.
Proof.
  induction m as [|m IH]; intros j i lim c c' k L; cbn [inner_loop]; [intros [= <- <-]; exact L|]. destruct (i <? lim); [|intros [= <- <-]; exact L]. destruct (new_member ev mu i j c) eqn:D; [|discriminate]. apply IH. exact (member_lens _ _ _ _ _ L D).
Qed.
Lemma outer_lens mu cutoff lim m : forall i c c', lens c -> outer_loop ev m mu cutoff i lim c = Some c' -> lens c'.
Proof.
  induction m as [|m IH]; intros i c c' L; cbn [outer_loop]; destruct (i <? lim); try discriminate; try (intros [= <-]; exact L). destruct (inner_loop ev mu cutoff 0 i lim c) as [[d k]|] eqn:D; [|discriminate]. apply IH. exact (inner_lens _ _ _ _ _ _ _ _ L D).
Qed.
Lemma gen_lens mu cutoff lim c c' : lens c -> new_generation ev mu cutoff lim c = Some c' -> lens c'.
Proof.
  intros L. unfold new_generation. destruct (keep_bases cutoff 0 c) as [d|] eqn:D; [|discriminate]. apply keep_lens in D; [|exact L]. destruct (outer_loop ev lim mu cutoff cutoff lim d) as [f|] eqn:F; [|discriminate]. apply outer_lens in F; [|exact D]. intros [= <-]. destruct F as (? & ? & ? & ?). unfold lens; cbn. auto.
Qed.
Lemma act_lens c r a c' r' : lens c -> do_act ev (c, r) a = Some (c', r') -> lens c'.
Proof.
  intros L. destruct a as [|i|i]; cbn [do_act].
  - destruct (ev_prepare ev (c_ev c)) eqn:P; [|discriminate]. intros [= <- <-]. apply h_prep in P. unfold lens; cbn. rewrite P. exact L.
  - destruct (nth_error (c_pop c) i); [|discriminate]. destruct (nth_error (c_muts c) i); [|discriminate]. destruct (ev_calc ev _ _ _ _) as [[e f]|] eqn:P; [|discriminate]. intros [= <- <-]. apply h_calc in P. unfold lens; cbn. rewrite P. exact L.
  - destruct (result r i); [|discriminate]. destruct (put _ _ _) eqn:W; [|discriminate]. destruct (ev_update ev _ _) eqn:P; [|discriminate]. intros [= <- <-]. apply h_upd in P. apply put_len in W. unfold lens; cbn. rewrite P, W. exact L.
Qed.
Lemma acts_lens s : forall c r c' r', lens c -> do_acts ev s (c, r) = Some (c', r') -> lens c'.
Proof. induction s as [|a s IH]; intros c r c' r' L; cbn [do_acts]; [intros [= <- <-]; exact L|]. destruct (do_act ev (c, r) a) as [[c1 r1]|] eqn:D; [|discriminate]. apply IH. exact (act_lens _ _ _ _ _ L D). Qed.

(** What the swaps do. *)
Lemma swaps_zip sw : forall c c', lens c -> do_swaps ev sw c = Some c' -> lens c' /\ rest (c_ev c') = rest (c_ev c) /\
  Permutation (combine (c_fits c') (combine (c_pop c') (ord (c_ev c')))) (combine (c_fits c) (combine (c_pop c) (ord (c_ev c)))) /\
  c_store c' = c_store c /\ c_newpop c' = c_newpop c /\ c_best c' = c_best c /\ c_muts c' = c_muts c /\ c_bestfit c' = c_bestfit c /\ c_gen c' = c_gen c.
Proof.
  induction sw as [|[i j] sw IH]; intros c c' L; cbn [do_swaps]; [intros [= <-]; auto 12 using Permutation_refl|].
  unfold swap_members. destruct (swap_at i j (c_fits c)) as [f|] eqn:Ef; [|discriminate]. destruct (swap_at i j (c_pop c)) as [p|] eqn:Ep; [|discriminate]. destruct (ev_swap ev (c_ev c) i j) as [e|] eqn:Ee; [|discriminate]. apply h_swap in Ee as (Eo & Er). intros H.
  apply IH in H as (H1 & H2 & H3 & H4).
  - cbn in H2, H3, H4. split; [exact H1|]. split; [congruence|]. split; [|exact H4]. refine (Permutation_trans H3 (swap_at_perm i j _ _ _)). apply swap_at_combine; [exact Ef|]. apply swap_at_combine; assumption.
  - destruct L as (L1 & L2 & L3 & L4). unfold lens; cbn. rewrite (swap_at_length _ _ _ _ Ef), (swap_at_length _ _ _ _ Ep), (swap_at_length _ _ _ _ Eo). auto.
Qed.
Lemma swaps_unique sw sw' c d d' : lens c -> do_swaps ev sw c = Some d -> do_swaps ev sw' c = Some d' -> no_ties (c_fits d) -> sorted (c_fits d') -> d = d'.
Proof.
  intros L H H' N O. destruct (swaps_zip _ _ _ L H) as ((L1 & L2 & L3 & L4) & R & P & A1 & A2 & A3 & A4 & A5 & A6). destruct (swaps_zip _ _ _ L H') as ((L1' & L2' & L3' & L4') & R' & P' & A1' & A2' & A3' & A4' & A5' & A6').
  assert (Lc : length (c_pop d) = length (ord (c_ev d))) by congruence. assert (Lc' : length (c_pop d') = length (ord (c_ev d'))) by congruence.
  assert (Lz : length (c_fits d) = length (combine (c_pop d) (ord (c_ev d)))) by (rewrite combine_length; lia). assert (Lz' : length (c_fits d') = length (combine (c_pop d') (ord (c_ev d')))) by (rewrite combine_length; lia).
  assert (Z : combine (c_fits d) (combine (c_pop d) (ord (c_ev d))) = combine (c_fits d') (combine (c_pop d') (ord (c_ev d')))).
  { apply (falling_unique fst); [exact (Permutation_trans P (Permutation_sym P'))|apply (map_sorted (fun x y => flt y x = true)), (nth_sorted _ f0)|apply (map_sorted (fun x y => flt x y = false)), (nth_sorted _ f0)].
    - rewrite combine_fst by exact Lz. exact N.
    - rewrite combine_fst by exact Lz'. intros i j Hij. exact (O i j Hij). }
  assert (F : c_fits d = c_fits d') by (rewrite <- (combine_fst _ _ Lz), <- (combine_fst _ _ Lz'), Z; reflexivity).
  assert (Q : combine (c_pop d) (ord (c_ev d)) = combine (c_pop d') (ord (c_ev d'))) by (rewrite <- (combine_snd _ _ Lz), <- (combine_snd _ _ Lz'), Z; reflexivity).
  assert (P0 : c_pop d = c_pop d') by (rewrite <- (combine_fst _ _ Lc), <- (combine_fst _ _ Lc'), Q; reflexivity).
  assert (O0 : ord (c_ev d) = ord (c_ev d')) by (rewrite <- (combine_snd _ _ Lc), <- (combine_snd _ _ Lc'), Q; reflexivity).
  assert (V : c_ev d = c_ev d') by (apply whole; [exact O0|congruence]).
  destruct d, d'; cbn in *. congruence.
Qed.
Lemma best_fits c c' : take_best c = Some c' -> c_fits c' = c_fits c /\ c_pop c' = c_pop c /\ c_newpop c' = c_newpop c /\ c_ev c' = c_ev (E := E) c.
Proof. unfold take_best. destruct (nth_error (c_pop c) 0); [|discriminate]. destruct (nth_error (c_fits c) 0); [|discriminate]. destruct (buf_set _ _ _); [|discriminate]. intros [= <-]. auto. Qed.
Lemma update_unique sw sw' c d d' : lens c -> update_fitnesses ev sw c = Some d -> update_fitnesses ev sw' c = Some d' -> no_ties (c_fits d) -> sorted (c_fits d') -> d = d' /\ lens d.
Proof.
  intros L. unfold update_fitnesses. destruct (do_swaps ev sw c) as [b|] eqn:D; [|discriminate]. destruct (do_swaps ev sw' c) as [b'|] eqn:D'; [|discriminate]. intros H H' N O. pose proof (best_fits _ _ H) as (F & F2 & F3 & F4). pose proof (best_fits _ _ H') as (F' & _). rewrite F in N. rewrite F' in O.
  pose proof (swaps_unique _ _ _ _ _ L D D' N O) as <-. split; [congruence|]. destruct (swaps_zip _ _ _ L D) as (L' & _). unfold lens. rewrite F, F2, F3, F4. exact L'.
Qed.
Lemma step_unique cutoff mu s sw sw' c d d' r r' : lens c -> simple_step ev cutoff mu s sw c = Some (d, r) -> simple_step ev cutoff mu s sw' c = Some (d', r') -> no_ties (c_fits d) -> sorted (c_fits d') -> d = d' /\ r = r' /\ lens d.
Proof.
  intros L. unfold simple_step. destruct (new_generation ev mu cutoff (length (c_pop c)) c) as [c1|] eqn:G; [|discriminate]. apply gen_lens in G; [|exact L]. unfold simple_calc. destruct (_ =? 0); [discriminate|]. destruct (do_acts ev s (c1, [])) as [[c2 r2]|] eqn:A; [|discriminate]. apply acts_lens in A; [|exact G].
  destruct (update_fitnesses ev sw c2) as [c3|] eqn:U; [|discriminate]. destruct (update_fitnesses ev sw' c2) as [c3'|] eqn:U'; [|discriminate]. intros [= <- <-] [= <- <-] N O. cbn in N, O. destruct (update_unique _ _ _ _ _ A U U' N O) as (<- & L'). auto.
Qed.
Lemma init_lens groups e c : length groups = n -> length (ord e) = n -> init_core groups e = Some c -> lens c.
Proof.
  intros Ln Lo. unfold init_core. destruct groups as [|g gs] eqn:Eg; [discriminate|]. rewrite <- Eg in *. intros [= <-]. unfold lens; cbn. rewrite repeat_length, !seq_length. auto.
Qed.
Lemma new_unique groups e s sw sw' d d' r r' : length groups = n -> length (ord e) = n -> new_simple ev groups e s sw = Some (d, r) -> new_simple ev groups e s sw' = Some (d', r') -> no_ties (c_fits d) -> sorted (c_fits d') -> d = d' /\ r = r' /\ lens d.
Proof.
  intros Ln Lo. unfold new_simple. destruct (init_core groups e) as [c1|] eqn:G; [|discriminate]. apply init_lens in G; [|exact Ln|exact Lo]. unfold simple_calc. destruct (_ =? 0); [discriminate|]. destruct (do_acts ev s (c1, [])) as [[c2 r2]|] eqn:A; [|discriminate]. apply acts_lens in A; [|exact G].
  destruct (update_fitnesses ev sw c2) as [c3|] eqn:U; [|discriminate]. destruct (update_fitnesses ev sw' c2) as [c3'|] eqn:U'; [|discriminate]. intros [= <- <-] [= <- <-] N O. destruct (update_unique _ _ _ _ _ A U U' N O) as (<- & L'). auto.
Qed.
Lemma twins_same cutoff groups e p q : length groups = n -> length (ord e) = n -> twins ev cutoff groups e p q -> p = q /\ lens (fst p).
Proof.
  intros Ln Lo. induction 1 as [s sw sw' c c' r r' H H' N O|c c' q q' mu s sw sw' d d' r r' _ (IH & L) H H' N O].
  - destruct (new_unique _ _ _ _ _ _ _ _ _ Ln Lo H H' N O) as (<- & <- & L). auto.
  - injection IH as <- <-. destruct (step_unique _ _ _ _ _ _ _ _ _ _ L H H' N O) as (<- & <- & L'). auto.
Qed.

(** modifiedGenetic *)
Lemma gact_lens cutoff g r a g' r' : lens (g_core g) -> g_act ev cutoff (g, r) a = Some (g', r') -> lens (g_core g').
Proof.
  intros L. unfold g_act. destruct (do_act ev (g_core g, r) a) as [[c1 r1]|] eqn:D; [|discriminate]. apply act_lens in D; [|exact L].
  destruct a as [|i|i]; [intros [= <- <-]; exact D..|]. destruct (get_base cutoff i); [|discriminate]. destruct (_ <? _); [|discriminate]. destruct (flt _ _); [|intros [= <- <-]; exact D]. destruct (set_beneficial _ _ _ _ _); [|discriminate]. intros [= <- <-]. exact D.
Qed.
Lemma gacts_lens cutoff s : forall g r g' r', lens (g_core g) -> g_acts ev cutoff s (g, r) = Some (g', r') -> lens (g_core g').
Proof. induction s as [|a s IH]; intros g r g' r' L; cbn [g_acts]; [intros [= <- <-]; exact L|]. destruct (g_act ev cutoff (g, r) a) as [[c1 r1]|] eqn:D; [|discriminate]. apply IH. exact (gact_lens _ _ _ _ _ _ L D). Qed.
Lemma combine_lens cutoff i g r g' r' : lens (g_core g) -> combine_one ev cutoff i (g, r) = Some (g', r') -> lens (g_core g').
Proof.
  intros (L1 & L2 & L3 & L4). unfold combine_one. destruct (put i [] _); [|discriminate]. destruct (get_base cutoff i) as [b|]; [|discriminate]. destruct (nth_error (c_pop (g_core g)) i); [|discriminate]. destruct (nth_error (g_ben g) b) as [[|x y]|]; [| |discriminate].
  - destruct (put i f0 _) eqn:W; [|discriminate]. apply put_len in W. intros [= <- <-]. unfold lens; cbn. rewrite W. auto.
  - destruct (nth_error (c_pop (g_core g)) b); [|discriminate]. destruct (ev_base ev _ i b) as [e1|] eqn:B; [|discriminate]. apply h_base in B. destruct (buf_set _ _ _); [|discriminate]. destruct (apply_muts _ _); [|discriminate]. destruct (ev_calc ev _ _ _ _) as [[e2 f]|] eqn:C0; [|discriminate]. apply h_calc in C0. destruct (put i f _) eqn:W; [|discriminate]. apply put_len in W. destruct (ev_update ev e2 i) eqn:U; [|discriminate]. apply h_upd in U. intros [= <- <-]. unfold lens; cbn. rewrite W, U, C0, B. auto.
Qed.
Lemma combines_lens cutoff m : forall i g r g' r', lens (g_core g) -> combine_muts ev cutoff m i (g, r) = Some (g', r') -> lens (g_core g').
Proof. induction m as [|m IH]; intros i g r g' r' L; cbn [combine_muts]; [intros [= <- <-]; exact L|]. destruct (combine_one ev cutoff i (g, r)) as [[g1 r1]|] eqn:M; [|discriminate]. apply IH. exact (combine_lens _ _ _ _ _ _ L M). Qed.
Lemma gstep_unique cutoff mu s sw sw' g d d' r r' : lens (g_core g) -> genetic_step ev cutoff mu s sw g = Some (d, r) -> genetic_step ev cutoff mu s sw' g = Some (d', r') -> no_ties (c_fits (g_core d)) -> sorted (c_fits (g_core d')) -> d = d' /\ r = r' /\ lens (g_core d).
Proof.
  intros L. unfold genetic_step. destruct (new_generation ev mu cutoff (length (c_pop (g_core g)) - cutoff) (g_core g)) as [c1|] eqn:G; [|discriminate]. apply gen_lens in G; [|exact L]. unfold g_calc. destruct (_ <=? cutoff); [discriminate|]. destruct (g_acts ev cutoff s _) as [[g2 r2]|] eqn:A; [|discriminate]. apply gacts_lens in A; [|exact G].
  destruct (combine_muts ev cutoff cutoff _ (g2, r2)) as [[g3 r3]|] eqn:M; [|discriminate]. apply combines_lens in M; [|exact A].
  destruct (update_fitnesses ev sw (g_core g3)) as [c3|] eqn:U; [|discriminate]. destruct (update_fitnesses ev sw' (g_core g3)) as [c3'|] eqn:U'; [|discriminate]. intros [= <- <-] [= <- <-] N O. cbn in N, O. destruct (update_unique _ _ _ _ _ M U U' N O) as (<- & L'). auto.
Qed.
Lemma gnew_unique cutoff groups e s sw sw' d d' r r' : length groups = n -> length (ord e) = n -> new_genetic ev cutoff groups e s sw = Some (d, r) -> new_genetic ev cutoff groups e s sw' = Some (d', r') -> no_ties (c_fits (g_core d)) -> sorted (c_fits (g_core d')) -> d = d' /\ r = r' /\ lens (g_core d).
Proof.
  intros Ln Lo. unfold new_genetic. destruct (init_core groups e) as [c1|] eqn:G; [|discriminate]. apply init_lens in G; [|exact Ln|exact Lo]. unfold g_calc. destruct (_ <=? cutoff); [discriminate|]. destruct (g_acts ev cutoff s _) as [[g2 r2]|] eqn:A; [|discriminate]. apply gacts_lens in A; [|exact G].
  destruct (update_fitnesses ev sw (g_core g2)) as [c3|] eqn:U; [|discriminate]. destruct (update_fitnesses ev sw' (g_core g2)) as [c3'|] eqn:U'; [|discriminate]. intros [= <- <-] [= <- <-] N O. cbn in N, O. destruct (update_unique _ _ _ _ _ A U U' N O) as (<- & L'). auto.
Qed.
Lemma gtwins_same cutoff groups e p q : length groups = n -> length (ord e) = n -> gtwins ev cutoff groups e p q -> p = q /\ lens (g_core (fst p)).
Proof.
  intros Ln Lo. induction 1 as [s sw sw' c c' r r' H H' N O|c c' q q' mu s sw sw' d d' r r' _ (IH & L) H H' N O].
  - destruct (gnew_unique _ _ _ _ _ _ _ _ _ _ Ln Lo H H' N O) as (<- & <- & L). auto.
  - injection IH as <- <-. destruct (gstep_unique _ _ _ _ _ _ _ _ _ _ L H H' N O) as (<- & <- & L'). auto.
Qed.
End Ties.
