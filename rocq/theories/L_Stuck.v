(** Proofs for C97: parameters with which the algorithms never try anything new. *)
From Coq Require Import Reals ZArith List Bool Arith Lia.
From Flocq Require Import IEEE754.BinarySingleNaN.
From Verif Require Import GoNum M_Norm M_Slice M_Algo S_Algo S_MemRun L_Slice L_Algo L_Algo2 L_Algo3.
Import ListNotations.
Local Open Scope nat_scope.

Section Stuck.
Context {E : Type} (ev : evaluator E) (groups : list (list npoint)) (n : nat).

(** Every array holds one of the groups, and every slice has an array. *)
Definition old (c : core E) : Prop :=
  Forall (fun a => In a groups) (c_store c) /\ Forall (fun a => a < length (c_store c)) (c_pop c) /\ Forall (fun a => a < length (c_store c)) (c_newpop c) /\
  c_best c < length (c_store c) /\ length (c_pop c) = n /\ length (c_newpop c) = n.

Lemma old_set st a b st' : Forall (fun a => In a groups) st -> b < length st -> buf_set st a b = Some st' -> Forall (fun a => In a groups) st' /\ length st' = length st.
Proof.
  intros O Hb. unfold buf_set. destruct (_ =? _); [|discriminate]. intros [= <-]. split; [|apply set_nth_length]. apply Forall_forall. intros x Hx. apply (In_nth _ _ []) in Hx as (k & Lk & <-). rewrite set_nth_length in Lk. rewrite nth_set_nth.
  rewrite Forall_forall in O. destruct (_ && _); apply O, nth_In; assumption.
Qed.
Lemma in_range l i a k : Forall (fun a => a < k) l -> nth_error l i = Some a -> a < k.
Proof. intros H E0. rewrite Forall_forall in H. apply H. eapply nth_error_In, E0. Qed.

Lemma copy_old i j c c' : old c -> copy_member i j c = Some c' -> old c'.
Proof.
  intros (A & B & D & F & G & H). unfold copy_member. destruct (nth_error (c_newpop c) i) as [a|]; [|discriminate]. destruct (nth_error (c_pop c) j) as [b|] eqn:Eb; [|discriminate]. destruct (put i [] (c_muts c)); [|discriminate].
  destruct (buf_set (c_store c) a b) as [st|] eqn:Es; [|discriminate]. intros [= <-]. apply old_set in Es as (S1 & S2); [|exact A|exact (in_range _ _ _ _ B Eb)].
  unfold old, with_store; cbn. rewrite S2. auto 8.
Qed.
Lemma keep_old m : forall i c c', old c -> keep_bases m i c = Some c' -> old c'.
Proof. induction m as [|m IH]; intros i c c' O; cbn [keep_bases]; [intros [= <-]; exact O|]. destruct (copy_member i i c) eqn:M; [|discriminate]. apply IH. exact (copy_old _ _ _ _ O M). Qed.
Lemma gen_old mu cutoff lim c c' : lim <= cutoff -> old c -> new_generation ev mu cutoff lim c = Some c' -> old c'.
Proof.
  intros L O. unfold new_generation. destruct (keep_bases cutoff 0 c) as [c1|] eqn:K; [|discriminate]. apply keep_old in K; [|exact O].
  replace (outer_loop ev lim mu cutoff cutoff lim c1) with (Some c1) by (destruct lim; cbn [outer_loop]; (replace (cutoff <? _) with false by (symmetry; apply Nat.ltb_ge; lia)); reflexivity).
  intros [= <-]. destruct K as (A & B & D & F & G & H). unfold old; cbn. auto 8.
Qed.
Lemma act_old c r a c' r' : old c -> do_act ev (c, r) a = Some (c', r') -> old c'.
Proof.
  intros O. destruct a as [|i|i]; cbn [do_act].
  - destruct (ev_prepare ev (c_ev c)); [|discriminate]. intros [= <- <-]. exact O.
  - destruct (nth_error (c_pop c) i); [|discriminate]. destruct (nth_error (c_muts c) i); [|discriminate]. destruct (ev_calc ev _ _ _ _); [|discriminate]. intros [= <- <-]. exact O.
  - destruct (result r i); [|discriminate]. destruct (put _ _ _); [|discriminate]. destruct (ev_update ev _ _); [|discriminate]. intros [= <- <-]. exact O.
Qed.
Lemma acts_old s : forall c r c' r', old c -> do_acts ev s (c, r) = Some (c', r') -> old c'.
Proof. induction s as [|a s IH]; intros c r c' r' O; cbn [do_acts]; [intros [= <- <-]; exact O|]. destruct (do_act ev (c, r) a) as [[c1 r1]|] eqn:M; [|discriminate]. apply IH. exact (act_old _ _ _ _ _ O M). Qed.
Lemma swap_range {A} (P : A -> Prop) i j (l l' : list A) : Forall P l -> swap_at i j l = Some l' -> Forall P l' /\ length l' = length l.
Proof.
  intros H. unfold swap_at. destruct (nth_error l i) as [x|] eqn:X; [|discriminate]. destruct (nth_error l j) as [y|] eqn:Y; [|discriminate]. intros [= <-]. rewrite !set_nth_length. split; [|reflexivity].
  rewrite Forall_forall in H. pose proof (H x (nth_error_In _ _ X)) as Px. pose proof (H y (nth_error_In _ _ Y)) as Py. apply Forall_forall. intros z Hz. apply (In_nth _ _ x) in Hz as (k & Lk & <-). rewrite !set_nth_length in Lk. rewrite !nth_set_nth.
  destruct (_ && _); [exact Px|]. destruct (_ && _); [exact Py|]. apply H, nth_In, Lk.
Qed.
Lemma swaps_old sw : forall c c', old c -> do_swaps ev sw c = Some c' -> old c'.
Proof.
  induction sw as [|[i j] sw IH]; intros c c' O; cbn [do_swaps]; [intros [= <-]; exact O|]. destruct (swap_members ev c (i, j)) as [c1|] eqn:M; [|discriminate]. apply IH. revert M. unfold swap_members.
  destruct (swap_at i j (c_fits c)); [|discriminate]. destruct (swap_at i j (c_pop c)) as [p|] eqn:Ep; [|discriminate]. destruct (ev_swap ev (c_ev c) i j); [|discriminate]. intros [= <-].
  destruct O as (A & B & D & F & G & H). apply (swap_range _ _ _ _ _ B) in Ep as (P1 & P2). unfold old; cbn. rewrite P2. auto 8.
Qed.
Lemma update_old sw c c' : old c -> update_fitnesses ev sw c = Some c' -> old c'.
Proof.
  intros O. unfold update_fitnesses. destruct (do_swaps ev sw c) as [c1|] eqn:M; [|discriminate]. apply swaps_old in M; [|exact O]. unfold take_best. destruct M as (A & B & D & F & G & H).
  destruct (nth_error (c_pop c1) 0) as [p|] eqn:P; [|discriminate]. destruct (nth_error (c_fits c1) 0); [|discriminate]. destruct (buf_set (c_store c1) (c_best c1) p) as [st|] eqn:Es; [|discriminate]. intros [= <-].
  apply old_set in Es as (S1 & S2); [|exact A|exact (in_range _ _ _ _ B P)]. unfold old; cbn. rewrite S2. auto 8.
Qed.
Lemma simple_step_old cutoff mu s sw c c' r : n <= cutoff -> old c -> simple_step ev cutoff mu s sw c = Some (c', r) -> old c'.
Proof.
  intros L O. unfold simple_step. destruct (new_generation ev mu cutoff (length (c_pop c)) c) as [c1|] eqn:G; [|discriminate]. apply gen_old in G; [|destruct O as (_ & _ & _ & _ & -> & _); exact L|exact O].
  unfold simple_calc. destruct (_ =? 0); [discriminate|]. destruct (do_acts ev s (c1, [])) as [[c2 r2]|] eqn:D; [|discriminate]. apply acts_old in D; [|exact G].
  destruct (update_fitnesses ev sw c2) as [c3|] eqn:U; [|discriminate]. intros [= <- <-]. exact (update_old _ _ _ D U).
Qed.
Lemma simple_steps_old cutoff l : n <= cutoff -> forall c rs c' rs', old c -> simple_steps_of ev cutoff l (c, rs) = Some (c', rs') -> old c'.
Proof.
  intros L. induction l as [|[[mu s] sw] l IH]; intros c rs c' rs' O; cbn [simple_steps_of]; [intros [= <- <-]; exact O|]. cbn [fst snd]. destruct (simple_step ev cutoff mu s sw c) as [[c1 r1]|] eqn:M; [|discriminate]. apply IH. exact (simple_step_old _ _ _ _ _ _ _ L O M).
Qed.
Lemma init_old e c : length groups = n -> init_core groups e = Some c -> old c.
Proof.
  intros Ln. unfold init_core. destruct groups as [|g gs] eqn:Eg; [discriminate|]. rewrite <- Eg in *. intros [= <-]. rewrite Ln. unfold old; cbn. rewrite !app_length, Ln. cbn [length]. rewrite !seq_length. split; [|split; [|split; [|lia]]].
  - rewrite !Forall_app. split; [apply Forall_forall; auto|]. split; [apply Forall_forall; auto|]. repeat constructor. rewrite Eg. left. reflexivity.
  - apply Forall_forall. intros a Ha. apply in_seq in Ha. lia.
  - apply Forall_forall. intros a Ha. apply in_seq in Ha. lia.
Qed.

Lemma flt_self x : flt x x = false.
Proof.
  destruct (flt x x) eqn:F; [|reflexivity]. pose proof (flt_nan _ _ F) as (N & _). apply flt_rank in F; [|exact N..]. exfalso. destruct F as [F|(_ & F)]; exact (Rlt_irrefl _ F).
Qed.

Definition gold (g : mgen E) : Prop := old (g_core g) /\ Forall (fun b => b = []) (g_ben g).
Lemma gact_old cutoff g r a g' r' : (forall i, a = Recv i -> i < cutoff) -> gold g -> g_act ev cutoff (g, r) a = Some (g', r') -> gold g'.
Proof.
  intros I (O & B). unfold g_act. destruct (do_act ev (g_core g, r) a) as [[c1 r1]|] eqn:D; [|discriminate]. apply act_old in D; [|exact O].
  destruct a as [|i|i]; [intros [= <- <-]; split; [exact D|exact B]..|]. specialize (I i eq_refl). unfold get_base. destruct (Nat.eqb_spec cutoff 0) as [|_]; [lia|]. rewrite Nat.mod_small by exact I. destruct (_ <? _); [|discriminate]. rewrite flt_self. intros [= <- <-]. split; [exact D|exact B].
Qed.
Lemma gacts_old cutoff s : forall g r g' r', (forall i, In (Recv i) s -> i < cutoff) -> gold g -> g_acts ev cutoff s (g, r) = Some (g', r') -> gold g'.
Proof.
  induction s as [|a s IH]; intros g r g' r' I O; cbn [g_acts]; [intros [= <- <-]; exact O|]. destruct (g_act ev cutoff (g, r) a) as [[g1 r1]|] eqn:M; [|discriminate]. apply IH; [intros i Hi; apply I; right; exact Hi|].
  refine (gact_old _ _ _ _ _ _ _ O M). intros i ->. apply I. left. reflexivity.
Qed.
Lemma combine_old cutoff i g r g' r' : gold g -> combine_one ev cutoff i (g, r) = Some (g', r') -> gold g'.
Proof.
  intros (O & B). unfold combine_one. destruct (put i [] _); [|discriminate]. destruct (get_base cutoff i) as [b|]; [|discriminate]. destruct (nth_error (c_pop (g_core g)) i); [|discriminate]. destruct (nth_error (g_ben g) b) as [x|] eqn:X; [|discriminate].
  pose proof (proj1 (Forall_forall _ _) B x (nth_error_In _ _ X)) as ->. destruct (put i f0 _); [|discriminate]. intros [= <- <-]. split; [exact O|exact B].
Qed.
Lemma combines_old cutoff m : forall i g r g' r', gold g -> combine_muts ev cutoff m i (g, r) = Some (g', r') -> gold g'.
Proof. induction m as [|m IH]; intros i g r g' r' O; cbn [combine_muts]; [intros [= <- <-]; exact O|]. destruct (combine_one ev cutoff i (g, r)) as [[g1 r1]|] eqn:M; [|discriminate]. apply IH. exact (combine_old _ _ _ _ _ _ O M). Qed.
Lemma recv_small cutoff s : n <= 2 * cutoff -> valid_schedule (n - cutoff) s -> forall i, In (Recv i) s -> i < cutoff.
Proof. intros L V i Hi. apply valid_ordered in V as (_ & V). apply V in Hi. lia. Qed.
Lemma genetic_step_old cutoff mu s sw g g' r : n <= 2 * cutoff -> valid_schedule (n - cutoff) s -> gold g -> genetic_step ev cutoff mu s sw g = Some (g', r) -> gold g'.
Proof.
  intros L V (O & B). unfold genetic_step. replace (length (c_pop (g_core g))) with n by (destruct O as (_ & _ & _ & _ & X & _); congruence). destruct (new_generation ev mu cutoff (n - cutoff) (g_core g)) as [c1|] eqn:G; [|discriminate]. apply gen_old in G; [|lia|exact O].
  unfold g_calc. destruct (_ <=? cutoff); [discriminate|]. destruct (g_acts ev cutoff s _) as [[g2 r2]|] eqn:D; [|discriminate]. apply gacts_old in D; [|exact (recv_small _ _ L V)|split; [exact G|apply Forall_forall; intros b Hb; apply in_map_iff in Hb as (? & <- & _); reflexivity]].
  destruct (combine_muts ev cutoff cutoff (n - cutoff) (g2, r2)) as [[g3 r3]|] eqn:M; [|discriminate]. apply combines_old in M; [|exact D]. destruct M as (M & M'). destruct (update_fitnesses ev sw (g_core g3)) as [c3|] eqn:U; [|discriminate]. intros [= <- <-]. split; [exact (update_old _ _ _ M U)|exact M'].
Qed.
Lemma genetic_steps_old cutoff l : n <= 2 * cutoff -> Forall (fun d : step_data => valid_schedule (n - cutoff) (snd (fst d))) l -> forall g rs g' rs', gold g -> genetic_steps_of ev cutoff l (g, rs) = Some (g', rs') -> gold g'.
Proof.
  intros L V. induction V as [|[[mu s] sw] l V0 V IH]; intros g rs g' rs' O; cbn [genetic_steps_of]; [intros [= <- <-]; exact O|]. cbn [fst snd] in *. destruct (genetic_step ev cutoff mu s sw g) as [[g1 r1]|] eqn:M; [|discriminate]. apply IH. exact (genetic_step_old _ _ _ _ _ _ _ L V0 O M).
Qed.
Lemma old_members c : old c -> Forall (fun g => In g groups) (members c) /\ In (buf c (best_slice c)) groups.
Proof.
  intros (A & B & D & F & _). rewrite Forall_forall in A. split; [|apply A, nth_In; exact F]. unfold members. apply Forall_forall. intros x Hx. apply in_map_iff in Hx as (a & <- & Ha). rewrite Forall_forall in B. apply A, nth_In, B, Ha.
Qed.
End Stuck.
