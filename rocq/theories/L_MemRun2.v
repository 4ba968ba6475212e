(** The lengths of population and newPopulation stay equal, whatever the evaluator. *)
From Coq Require Import ZArith List Bool Arith Lia.
From Verif Require Import GoNum M_Norm M_Slice M_Algo L_Slice.
Import ListNotations.
Local Open Scope nat_scope.

Section Len.
Context {E : Type} (ev : evaluator E).
Definition pops (c : core E) : list nat * list nat := (c_pop c, c_newpop c).
Lemma copy_pops i j c c' : copy_member i j c = Some c' -> pops c' = pops c.
Proof. unfold copy_member. destruct (nth_error _ i); [|discriminate]. destruct (nth_error _ j); [|discriminate]. destruct (put i [] _); [|discriminate]. destruct (buf_set _ _ _); [|discriminate]. intros [= <-]. reflexivity. Qed.
Lemma new_pops mu i j c c' : new_member ev mu i j c = Some c' -> pops c' = pops c.
Proof.
  unfold new_member. destruct (copy_member i j c) as [c1|] eqn:K; [|discriminate]. destruct (ev_base ev _ i j); [|discriminate]. destruct (nth_error _ i); [|discriminate]. destruct (mu i _). intros [= <-]. exact (copy_pops i j c c1 K).
Qed.
Lemma keep_pops n : forall i c c', keep_bases n i c = Some c' -> pops c' = pops c.
Proof. induction n as [|n IH]; intros i c c'; cbn [keep_bases]; [intros [= <-]; reflexivity|]. destruct (copy_member i i c) as [c1|] eqn:K; [|discriminate]. intros H. rewrite (IH _ _ _ H). exact (copy_pops _ _ _ _ K). Qed.
Lemma inner_pops mu n : forall j i lim c c' i', inner_loop ev mu n j i lim c = Some (c', i') -> pops c' = pops c.
Proof.
  induction n as [|n IH]; intros j i lim c c' i'; cbn [inner_loop]; [intros [= <- <-]; reflexivity|]. destruct (i <? lim); [|intros [= <- <-]; reflexivity].
  destruct (new_member ev mu i j c) as [c1|] eqn:K; [|discriminate]. intros H. rewrite (IH _ _ _ _ _ _ H). exact (new_pops _ _ _ _ _ K).
Qed.
Lemma outer_pops mu cutoff lim n : forall i c c', outer_loop ev n mu cutoff i lim c = Some c' -> pops c' = pops c.
Proof.
  induction n as [|n IH]; intros i c c'; cbn [outer_loop]; (destruct (i <? lim); [|intros [= <-]; reflexivity]); [discriminate|].
  destruct (inner_loop ev mu cutoff 0 i lim c) as [[c1 i1]|] eqn:K; [|discriminate]. intros H. rewrite (IH _ _ _ H). exact (inner_pops _ _ _ _ _ _ _ _ K).
Qed.
Lemma gen_pops mu cutoff lim c c' : new_generation ev mu cutoff lim c = Some c' -> c_pop c' = c_newpop c /\ c_newpop c' = c_pop c.
Proof.
  unfold new_generation. destruct (keep_bases cutoff 0 c) as [c1|] eqn:K; [|discriminate]. destruct (outer_loop ev lim mu cutoff cutoff lim c1) as [c2|] eqn:O; [|discriminate]. intros [= <-]. cbn [c_pop c_newpop].
  apply keep_pops in K. apply outer_pops in O. unfold pops in *. split; congruence.
Qed.
Lemma act_pops c r a c' r' : do_act ev (c, r) a = Some (c', r') -> pops c' = pops c.
Proof.
  unfold do_act. destruct a as [|i|i].
  - destruct (ev_prepare ev _); [|discriminate]. intros [= <- <-]. reflexivity.
  - destruct (nth_error _ i); [|discriminate]. destruct (nth_error _ i); [|discriminate]. destruct (ev_calc ev _ _ _ _) as [[]|]; [|discriminate]. intros [= <- <-]. reflexivity.
  - destruct (result r i); [|discriminate]. destruct (put i _ _); [|discriminate]. destruct (ev_update ev _ _); [|discriminate]. intros [= <- <-]. reflexivity.
Qed.
Lemma g_act_pops cutoff g r a g' r' : g_act ev cutoff (g, r) a = Some (g', r') -> pops (g_core g') = pops (g_core g).
Proof.
  unfold g_act. destruct (do_act ev (g_core g, r) a) as [[c1 r1]|] eqn:A; [|discriminate]. apply act_pops in A. destruct a as [|i|i]; try (intros [= <- <-]; exact A).
  destruct (get_base cutoff i); [|discriminate]. destruct (_ <? _); [|discriminate]. destruct (flt _ _); [|intros [= <- <-]; exact A]. destruct (set_beneficial _ _ _ _ _); [|discriminate]. intros [= <- <-]. exact A.
Qed.
Lemma g_acts_pops cutoff s : forall g r g' r', g_acts ev cutoff s (g, r) = Some (g', r') -> pops (g_core g') = pops (g_core g).
Proof.
  induction s as [|a s IH]; intros g r g' r'; cbn [g_acts]; [intros [= <- <-]; reflexivity|]. destruct (g_act ev cutoff (g, r) a) as [[g1 r1]|] eqn:A; [|discriminate]. intros H. rewrite (IH _ _ _ _ H). exact (g_act_pops _ _ _ _ _ _ A).
Qed.
Lemma combine_one_pops cutoff i g r g' r' : combine_one ev cutoff i (g, r) = Some (g', r') -> pops (g_core g') = pops (g_core g).
Proof.
  unfold combine_one. destruct (put i [] _); [|discriminate]. destruct (get_base cutoff i); [|discriminate]. destruct (nth_error _ i); [|discriminate]. destruct (nth_error (g_ben g) _) as [[|b bs]|]; [| |discriminate].
  { destruct (put i f0 _); [|discriminate]. intros [= <- <-]. reflexivity. }
  destruct (nth_error _ _); [|discriminate]. destruct (ev_base ev _ _ _); [|discriminate]. destruct (buf_set _ _ _); [|discriminate]. destruct (apply_muts _ _); [|discriminate]. destruct (ev_calc ev _ _ _ _) as [[]|]; [|discriminate].
  destruct (put i _ _); [|discriminate]. destruct (ev_update ev _ _); [|discriminate]. intros [= <- <-]. reflexivity.
Qed.
Lemma combine_pops cutoff n : forall i g r g' r', combine_muts ev cutoff n i (g, r) = Some (g', r') -> pops (g_core g') = pops (g_core g).
Proof.
  induction n as [|n IH]; intros i g r g' r'; cbn [combine_muts]; [intros [= <- <-]; reflexivity|]. destruct (combine_one ev cutoff i (g, r)) as [[g1 r1]|] eqn:A; [|discriminate]. intros H. rewrite (IH _ _ _ _ _ H). exact (combine_one_pops _ _ _ _ _ _ A).
Qed.
Lemma swap_len {A} i j (l l' : list A) : swap_at i j l = Some l' -> length l' = length l.
Proof. unfold swap_at. destruct (nth_error l i); [|discriminate]. destruct (nth_error l j); [|discriminate]. intros [= <-]. rewrite !set_nth_length. reflexivity. Qed.
Lemma swaps_len sw : forall (c c' : core E), do_swaps ev sw c = Some c' -> length (c_pop c') = length (c_pop c) /\ c_newpop c' = c_newpop c.
Proof.
  induction sw as [|[i j] sw IH]; intros c c'; cbn [do_swaps]; [intros [= <-]; auto|]. destruct (swap_members ev c (i, j)) as [c1|] eqn:S; [|discriminate]. intros H. destruct (IH _ _ H) as [-> ->]. revert S. unfold swap_members.
  destruct (swap_at i j (c_fits c)); [|discriminate]. destruct (swap_at i j (c_pop c)) as [p|] eqn:P; [|discriminate]. destruct (ev_swap ev _ _ _); [|discriminate]. intros [= <-]. cbn [c_pop c_newpop]. split; [exact (swap_len _ _ _ _ P)|reflexivity].
Qed.
Lemma update_len sw (c c' : core E) : update_fitnesses ev sw c = Some c' -> length (c_pop c') = length (c_pop c) /\ c_newpop c' = c_newpop c.
Proof.
  unfold update_fitnesses. destruct (do_swaps ev sw c) as [c1|] eqn:S; [|discriminate]. unfold take_best. destruct (nth_error (c_pop c1) 0); [|discriminate]. destruct (nth_error (c_fits c1) 0); [|discriminate]. destruct (buf_set _ _ _); [|discriminate]. intros [= <-]. exact (swaps_len _ _ _ S).
Qed.
Definition both (n : nat) (c : core E) : Prop := length (c_pop c) = n /\ length (c_newpop c) = n.
Lemma genetic_both n cutoff mu s sw g g' r : both n (g_core g) -> genetic_step ev cutoff mu s sw g = Some (g', r) -> both n (g_core g').
Proof.
  intros [B1 B2]. unfold genetic_step. destruct (new_generation ev mu cutoff _ (g_core g)) as [c1|] eqn:G; [|discriminate]. destruct (g_calc ev cutoff s _) as [[g2 r2]|] eqn:A; [|discriminate].
  destruct (combine_muts ev cutoff cutoff _ (g2, r2)) as [[g3 r3]|] eqn:C; [|discriminate]. destruct (update_fitnesses ev sw (g_core g3)) as [c4|] eqn:U; [|discriminate]. intros [= <- <-].
  apply gen_pops in G. unfold g_calc in A. destruct (_ <=? _); [discriminate|]. apply g_acts_pops in A. apply combine_pops in C. apply update_len in U. unfold pops in *. cbn [g_core] in *. unfold both, next_gen. cbn [c_pop c_newpop].
  destruct G, U. assert (c_pop (g_core g3) = c_newpop (g_core g)) by congruence. assert (c_newpop (g_core g3) = c_pop (g_core g)) by congruence. split; congruence.
Qed.
Lemma new_both cutoff groups e s sw g r : new_genetic ev cutoff groups e s sw = Some (g, r) -> both (length groups) (g_core g).
Proof.
  unfold new_genetic. destruct (init_core groups e) as [c1|] eqn:I; [|discriminate]. destruct (g_calc ev cutoff s _) as [[g2 r2]|] eqn:A; [|discriminate]. destruct (update_fitnesses ev sw (g_core g2)) as [c4|] eqn:U; [|discriminate]. intros [= <- <-].
  unfold g_calc in A. destruct (_ <=? _); [discriminate|]. apply g_acts_pops in A. apply update_len in U. unfold pops in *. cbn [g_core] in *. destruct U as [U1 U2].
  unfold init_core in I. destruct groups as [|g0 gs]; [discriminate|]. injection I as <-. cbn [c_pop c_newpop] in A. injection A as A1 A2. split; [rewrite U1, A1|rewrite U2, A2]; cbn [length]; rewrite ?seq_length; reflexivity.
Qed.
End Len.
