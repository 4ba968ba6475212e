(** The algorithms do not depend on which arrays hold the members, as long as they are different. *)
From Coq Require Import ZArith List Bool Arith Lia.
From Verif Require Import GoNum M_Norm M_Slice M_Algo M_Shared L_Slice L_Algo.
Import ListNotations.
Local Open Scope nat_scope.

Definition both {A} (R : A -> A -> Prop) (o o' : option A) : Prop := match o, o' with None, None => True | Some x, Some y => R x y | _, _ => False end.

Section Rename.
Context {E : Type} (ev : evaluator E) (rho : nat -> nat) (K : nat).
Hypothesis inj : forall a b, a < K -> b < K -> rho a = rho b -> a = b.
Definition sren (st st' : list (list npoint)) : Prop := length st = K /\ forall a, a < K -> rho a < length st' /\ nth (rho a) st' [] = nth a st [].
Record ren (c c' : core E) : Prop := {
  rn_pop : c_pop c' = map rho (c_pop c); rn_new : c_newpop c' = map rho (c_newpop c); rn_best : c_best c' = rho (c_best c);
  rn_fits : c_fits c' = c_fits c; rn_muts : c_muts c' = c_muts c; rn_bf : c_bestfit c' = c_bestfit c; rn_gen : c_gen c' = c_gen c; rn_ev : c_ev c' = c_ev c;
  rn_st : sren (c_store c) (c_store c'); rn_ip : Forall (fun a => a < K) (c_pop c); rn_in : Forall (fun a => a < K) (c_newpop c); rn_ib : c_best c < K }.
Lemma sren_set st st' a v : sren st st' -> a < K -> sren (set_nth a v st) (set_nth (rho a) v st').
Proof.
  intros [L H] Ha. split; [rewrite set_nth_length; exact L|]. intros b Hb. rewrite set_nth_length, !nth_set_nth. destruct (H b Hb) as [H1 H2]. destruct (H a Ha) as [H3 _]. split; [exact H1|].
  destruct (Nat.eqb_spec a b) as [<-|N].
  - rewrite Nat.eqb_refl. destruct (Nat.ltb_spec (rho a) (length st')), (Nat.ltb_spec a (length st)); try lia. reflexivity.
  - destruct (Nat.eqb_spec (rho a) (rho b)) as [X|_]; [exfalso; exact (N (inj a b Ha Hb X))|]. exact H2.
Qed.
Lemma buf_ren c c' a : ren c c' -> a < K -> buf c' (rho a) = buf c a.
Proof. intros R Ha. exact (proj2 (proj2 (rn_st c c' R) a Ha)). Qed.
Lemma bufset_ren st st' a b : sren st st' -> a < K -> b < K -> both sren (buf_set st a b) (buf_set st' (rho a) (rho b)).
Proof.
  intros R Ha Hb. unfold buf_set. destruct R as [L H] eqn:X. clear X. rewrite (proj2 (H a Ha)), (proj2 (H b Hb)). destruct (length (nth a st []) =? length (nth b st [])); [|exact I]. cbn [both]. apply sren_set; [split; assumption|exact Ha].
Qed.
Lemma nth_ren l i : nth_error (map rho l) i = option_map rho (nth_error l i).
Proof. apply nth_error_map. Qed.
Lemma nth_in l i a : Forall (fun a => a < K) l -> nth_error l i = Some a -> a < K.
Proof. intros F X. rewrite Forall_forall in F. apply F, (nth_error_In _ _ X). Qed.

Lemma copy_ren i j c c' : ren c c' -> both ren (copy_member i j c) (copy_member i j c').
Proof.
  intros R. unfold copy_member. rewrite (rn_pop _ _ R), (rn_new _ _ R), (rn_muts _ _ R), !nth_ren.
  destruct (nth_error (c_newpop c) i) as [a|] eqn:Ea; cbn [option_map]; [|exact I]. destruct (nth_error (c_pop c) j) as [b|] eqn:Eb; cbn [option_map]; [|exact I]. destruct (put i [] (c_muts c)) as [m|]; [|exact I].
  pose proof (bufset_ren _ _ a b (rn_st _ _ R) (nth_in _ _ _ (rn_in _ _ R) Ea) (nth_in _ _ _ (rn_ip _ _ R) Eb)) as B. destruct (buf_set (c_store c) a b), (buf_set (c_store c') (rho a) (rho b)); cbn [both option_map] in *; try contradiction; [|exact I].
  destruct R. constructor; auto.
Qed.
Lemma member_ren mu i j c c' : ren c c' -> both ren (new_member ev mu i j c) (new_member ev mu i j c').
Proof.
  intros R. unfold new_member. pose proof (copy_ren i j c c' R) as X. destruct (copy_member i j c) as [d|], (copy_member i j c') as [d'|]; cbn [both] in *; try contradiction; [|exact I].
  rewrite (rn_ev _ _ X), (rn_new _ _ X), nth_ren. destruct (ev_base ev (c_ev d) i j); [|exact I]. destruct (nth_error (c_newpop d) i) as [a|] eqn:Ea; cbn [option_map]; [|exact I]. pose proof (nth_in _ _ _ (rn_in _ _ X) Ea) as Ha.
  rewrite (buf_ren _ _ a X Ha). destruct (mu i (buf d a)) as [p l]. cbn [both]. destruct X. constructor; auto; cbn; [congruence|]. apply sren_set; assumption.
Qed.
Lemma keep_ren n : forall i c c', ren c c' -> both ren (keep_bases n i c) (keep_bases n i c').
Proof. induction n as [|n IH]; intros i c c' R; cbn [keep_bases]; [exact R|]. pose proof (copy_ren i i c c' R) as X. destruct (copy_member i i c), (copy_member i i c'); cbn [both] in *; try contradiction; [|exact I]. apply IH, X. Qed.
Definition ren_with {B} (p q : core E * B) : Prop := ren (fst p) (fst q) /\ snd p = snd q.
Lemma inner_ren mu n : forall j i lim c c', ren c c' -> both ren_with (inner_loop ev mu n j i lim c) (inner_loop ev mu n j i lim c').
Proof.
  induction n as [|n IH]; intros j i lim c c' R; cbn [inner_loop]; [split; [exact R|reflexivity]|]. destruct (i <? lim); [|split; [exact R|reflexivity]].
  pose proof (member_ren mu i j c c' R) as X. destruct (new_member ev mu i j c), (new_member ev mu i j c'); cbn [both] in *; try contradiction; [|exact I]. apply IH, X.
Qed.
Lemma outer_ren mu cutoff lim n : forall i c c', ren c c' -> both ren (outer_loop ev n mu cutoff i lim c) (outer_loop ev n mu cutoff i lim c').
Proof.
  induction n as [|n IH]; intros i c c' R; cbn [outer_loop]; destruct (i <? lim); try exact R; try exact I.
  pose proof (inner_ren mu cutoff 0 i lim c c' R) as X. destruct (inner_loop ev mu cutoff 0 i lim c) as [[d k]|], (inner_loop ev mu cutoff 0 i lim c') as [[d' k']|]; cbn [both] in *; try contradiction; [|exact I].
  destruct X as [X Y]. cbn [fst snd] in X, Y. subst k'. apply IH, X.
Qed.
Lemma gen_ren mu cutoff lim c c' : ren c c' -> both ren (new_generation ev mu cutoff lim c) (new_generation ev mu cutoff lim c').
Proof.
  intros R. unfold new_generation. pose proof (keep_ren cutoff 0 c c' R) as X. destruct (keep_bases cutoff 0 c) as [d|], (keep_bases cutoff 0 c') as [d'|]; cbn [both] in *; try contradiction; [|exact I].
  pose proof (outer_ren mu cutoff lim lim cutoff d d' X) as Y. destruct (outer_loop ev lim mu cutoff cutoff lim d) as [f|], (outer_loop ev lim mu cutoff cutoff lim d') as [f'|]; cbn [both] in *; try contradiction; [|exact I].
  destruct Y. constructor; auto.
Qed.
Lemma act_ren c c' r a : ren c c' -> both ren_with (do_act ev (c, r) a) (do_act ev (c', r) a).
Proof.
  intros R. unfold do_act. destruct a as [|i|i].
  - rewrite (rn_ev _ _ R). destruct (ev_prepare ev (c_ev c)); cbn [option_map both]; [|exact I]. split; [|reflexivity]. destruct R. constructor; auto.
  - rewrite (rn_pop _ _ R), nth_ren, (rn_muts _ _ R), (rn_ev _ _ R). destruct (nth_error (c_pop c) i) as [a|] eqn:Ea; cbn [option_map]; [|exact I]. destruct (nth_error (c_muts c) i); [|exact I].
    rewrite (buf_ren _ _ a R (nth_in _ _ _ (rn_ip _ _ R) Ea)). destruct (ev_calc ev (c_ev c) i (buf c a) l) as [[e f]|]; cbn [option_map both]; [|exact I]. split; [|reflexivity]. destruct R. constructor; auto.
  - destruct (result r i); [|exact I]. rewrite (rn_fits _ _ R), (rn_ev _ _ R). destruct (put i f (c_fits c)); [|exact I]. destruct (ev_update ev (c_ev c) i); [|exact I]. cbn [both]. split; [|reflexivity]. destruct R. constructor; auto.
Qed.
Lemma acts_ren s : forall c c' r, ren c c' -> both ren_with (do_acts ev s (c, r)) (do_acts ev s (c', r)).
Proof.
  induction s as [|a s IH]; intros c c' r R; cbn [do_acts]; [split; [exact R|reflexivity]|]. pose proof (act_ren c c' r a R) as X. destruct (do_act ev (c, r) a) as [[d q]|], (do_act ev (c', r) a) as [[d' q']|]; cbn [both] in *; try contradiction; [|exact I].
  destruct X as [X Y]. cbn [fst snd] in X, Y. subst q'. apply IH, X.
Qed.
Lemma swap_map i j l : swap_at i j (map rho l) = option_map (map rho) (swap_at i j l).
Proof. unfold swap_at. rewrite !nth_ren. destruct (nth_error l i), (nth_error l j); cbn [option_map]; try reflexivity. f_equal. assert (M : forall k v l, map rho (set_nth k v l) = set_nth k (rho v) (map rho l)) by (clear; intros k v l; revert k; induction l as [|x l IH]; intros [|k]; cbn; try reflexivity; f_equal; apply IH). rewrite !M. reflexivity. Qed.
Lemma swap_in i j l l' : Forall (fun a => a < K) l -> swap_at i j l = Some l' -> Forall (fun a => a < K) l'.
Proof.
  intros F. unfold swap_at. destruct (nth_error l i) as [a|] eqn:Ea; [|discriminate]. destruct (nth_error l j) as [b|] eqn:Eb; [|discriminate]. intros [= <-].
  assert (M : forall k v l, v < K -> Forall (fun a => a < K) l -> Forall (fun a => a < K) (set_nth k v l)) by (clear; intros k v l Hv; revert k; induction l as [|x l IH]; intros [|k] F; cbn; inversion F; subst; auto).
  apply M; [exact (nth_in _ _ _ F Ea)|]. apply M; [exact (nth_in _ _ _ F Eb)|exact F].
Qed.
Lemma swaps_ren sw : forall c c', ren c c' -> both ren (do_swaps ev sw c) (do_swaps ev sw c').
Proof.
  induction sw as [|[i j] sw IH]; intros c c' R; cbn [do_swaps]; [exact R|]. unfold swap_members. rewrite (rn_fits _ _ R), (rn_pop _ _ R), (rn_ev _ _ R), swap_map.
  destruct (swap_at i j (c_fits c)); [|exact I]. destruct (swap_at i j (c_pop c)) as [p|] eqn:P; cbn [option_map]; [|exact I]. destruct (ev_swap ev (c_ev c) i j); [|exact I]. apply IH. pose proof (swap_in _ _ _ _ (rn_ip _ _ R) P). destruct R. constructor; auto.
Qed.
Lemma update_ren sw c c' : ren c c' -> both ren (update_fitnesses ev sw c) (update_fitnesses ev sw c').
Proof.
  intros R. unfold update_fitnesses. pose proof (swaps_ren sw c c' R) as X. destruct (do_swaps ev sw c) as [d|], (do_swaps ev sw c') as [d'|]; cbn [both] in *; try contradiction; [|exact I].
  unfold take_best. rewrite (rn_pop _ _ X), nth_ren, (rn_fits _ _ X). destruct (nth_error (c_pop d) 0) as [a|] eqn:Ea; cbn [option_map]; [|exact I]. destruct (nth_error (c_fits d) 0); [|exact I]. rewrite (rn_best _ _ X).
  pose proof (bufset_ren _ _ (c_best d) a (rn_st _ _ X) (rn_ib _ _ X) (nth_in _ _ _ (rn_ip _ _ X) Ea)) as B. destruct (buf_set (c_store d) (c_best d) a), (buf_set (c_store d') (rho (c_best d)) (rho a)); cbn [both option_map] in *; try contradiction; [|exact I].
  destruct X. constructor; auto.
Qed.
Lemma next_ren c c' : ren c c' -> ren (next_gen c) (next_gen c').
Proof. intros R. destruct R. constructor; auto. cbn. congruence. Qed.
Lemma calc_ren s c c' : ren c c' -> both ren_with (simple_calc ev s c) (simple_calc ev s c').
Proof. intros R. unfold simple_calc. rewrite (rn_pop _ _ R), map_length. destruct (length (c_pop c) =? 0); [exact I|apply acts_ren, R]. Qed.
Lemma step_ren cutoff mu s sw c c' : ren c c' -> both ren_with (simple_step ev cutoff mu s sw c) (simple_step ev cutoff mu s sw c').
Proof.
  intros R. unfold simple_step. rewrite (rn_pop _ _ R), map_length. pose proof (gen_ren mu cutoff (length (c_pop c)) c c' R) as X. destruct (new_generation ev mu cutoff (length (c_pop c)) c) as [d|], (new_generation ev mu cutoff (length (c_pop c)) c') as [d'|]; cbn [both] in *; try contradiction; [|exact I].
  pose proof (calc_ren s d d' X) as Y. destruct (simple_calc ev s d) as [[f q]|], (simple_calc ev s d') as [[f' q']|]; cbn [both] in *; try contradiction; [|exact I]. destruct Y as [Y Z]. cbn [fst snd] in Y, Z. subst q'.
  pose proof (update_ren sw f f' Y) as U. destruct (update_fitnesses ev sw f), (update_fitnesses ev sw f'); cbn [both option_map] in *; try contradiction; [|exact I]. split; [exact (next_ren _ _ U)|reflexivity].
Qed.

(** modifiedGenetic *)
Definition gren (g g' : mgen E) : Prop := ren (g_core g) (g_core g') /\ g_ben g = g_ben g'.
Definition gren_with (p q : mgen E * results) : Prop := gren (fst p) (fst q) /\ snd p = snd q.
Lemma gact_ren cutoff a g g' r : gren g g' -> both gren_with (g_act ev cutoff (g, r) a) (g_act ev cutoff (g', r) a).
Proof.
  intros [R B]. unfold g_act. pose proof (act_ren (g_core g) (g_core g') r a R) as X. destruct (do_act ev (g_core g, r) a) as [[d q]|], (do_act ev (g_core g', r) a) as [[d' q']|]; cbn [both] in *; try contradiction; [|exact I]. destruct X as [X Y]. cbn [fst snd] in X, Y. subst q'.
  assert (S0 : forall b, gren_with (MGen d b, q) (MGen d' b, q)) by (intros b; split; [split; [exact X|reflexivity]|reflexivity]).
  destruct a as [|i|i]; [rewrite <- B; apply S0|rewrite <- B; apply S0|]. destruct (get_base cutoff i); [|exact I]. rewrite (rn_fits _ _ X), (rn_muts _ _ X), <- B. destruct (n <? length (c_fits d)); [|exact I]. destruct (flt _ _); [|apply S0].
  destruct (set_beneficial cutoff i (c_fits d) (c_muts d) (g_ben g)); cbn [option_map both]; [apply S0|exact I].
Qed.
Lemma gacts_ren cutoff s : forall g g' r, gren g g' -> both gren_with (g_acts ev cutoff s (g, r)) (g_acts ev cutoff s (g', r)).
Proof.
  induction s as [|a s IH]; intros g g' r R; cbn [g_acts]; [split; [exact R|reflexivity]|]. pose proof (gact_ren cutoff a g g' r R) as X. destruct (g_act ev cutoff (g, r) a) as [[d q]|], (g_act ev cutoff (g', r) a) as [[d' q']|]; cbn [both] in *; try contradiction; [|exact I].
  destruct X as [X Y]. cbn [fst snd] in X, Y. subst q'. apply IH, X.
Qed.
Lemma gcalc_ren cutoff s g g' : gren g g' -> both gren_with (g_calc ev cutoff s g) (g_calc ev cutoff s g').
Proof. intros R. unfold g_calc. rewrite (rn_pop _ _ (proj1 R)), map_length. destruct (length (c_pop (g_core g)) <=? cutoff); [exact I|apply gacts_ren, R]. Qed.
Lemma combine_ren cutoff i g g' r : gren g g' -> both gren_with (combine_one ev cutoff i (g, r)) (combine_one ev cutoff i (g', r)).
Proof.
  intros [R B]. unfold combine_one. rewrite (rn_muts _ _ R), (rn_pop _ _ R), !nth_ren. destruct (put i [] (c_muts (g_core g))) as [m0|]; [|exact I]. destruct (get_base cutoff i) as [b|]; [|exact I]. destruct (nth_error (c_pop (g_core g)) i) as [a|] eqn:Ea; cbn [option_map]; [|exact I].
  rewrite <- B. destruct (nth_error (g_ben g) b) as [[|bm0 bm]|]; [| |exact I].
  - rewrite (rn_fits _ _ R). destruct (put i f0 (c_fits (g_core g))); cbn [option_map both]; [|exact I]. split; [|reflexivity]. split; [|reflexivity]. cbn [fst g_core]. destruct R. constructor; auto.
  - rewrite nth_ren, (rn_ev _ _ R). destruct (nth_error (c_pop (g_core g)) b) as [ab|] eqn:Eb; cbn [option_map]; [|exact I]. destruct (ev_base ev (c_ev (g_core g)) i b) as [e1|]; [|exact I].
    pose proof (nth_in _ _ _ (rn_ip _ _ R) Ea) as Ha. pose proof (nth_in _ _ _ (rn_ip _ _ R) Eb) as Hb. pose proof (bufset_ren _ _ a ab (rn_st _ _ R) Ha Hb) as X. destruct (buf_set (c_store (g_core g)) a ab) as [st|], (buf_set (c_store (g_core g')) (rho a) (rho ab)) as [st'|]; cbn [both] in X; try contradiction; [|exact I].
    rewrite (proj2 (proj2 X a Ha)). destruct (apply_muts (map fst (bm0 :: bm)) (nth a st [])) as [pts|]; [|exact I]. destruct (ev_calc ev e1 i pts (map fst (bm0 :: bm))) as [[e2 f]|]; [|exact I]. rewrite (rn_fits _ _ R). destruct (put i f (c_fits (g_core g))); [|exact I]. destruct (ev_update ev e2 i); [|exact I]. cbn [both].
    split; [|reflexivity]. split; [|reflexivity]. cbn [fst g_core]. destruct R. constructor; auto. apply sren_set; assumption.
Qed.
Lemma combines_ren cutoff n : forall i g g' r, gren g g' -> both gren_with (combine_muts ev cutoff n i (g, r)) (combine_muts ev cutoff n i (g', r)).
Proof.
  induction n as [|n IH]; intros i g g' r R; cbn [combine_muts]; [split; [exact R|reflexivity]|]. pose proof (combine_ren cutoff i g g' r R) as X. destruct (combine_one ev cutoff i (g, r)) as [[d q]|], (combine_one ev cutoff i (g', r)) as [[d' q']|]; cbn [both] in *; try contradiction; [|exact I].
  destruct X as [X Y]. cbn [fst snd] in X, Y. subst q'. apply IH, X.
Qed.
Lemma gstep_ren cutoff mu s sw g g' : gren g g' -> both gren_with (genetic_step ev cutoff mu s sw g) (genetic_step ev cutoff mu s sw g').
Proof.
  intros [R B]. unfold genetic_step. rewrite (rn_pop _ _ R), map_length. pose proof (gen_ren mu cutoff (length (c_pop (g_core g)) - cutoff) _ _ R) as X. destruct (new_generation ev mu cutoff (length (c_pop (g_core g)) - cutoff) (g_core g)) as [d|], (new_generation ev mu cutoff (length (c_pop (g_core g)) - cutoff) (g_core g')) as [d'|]; cbn [both] in *; try contradiction; [|exact I].
  rewrite <- B. pose proof (gcalc_ren cutoff s (MGen d (map (fun _ => []) (g_ben g))) (MGen d' (map (fun _ => []) (g_ben g))) (conj X eq_refl)) as Y. destruct (g_calc ev cutoff s (MGen d (map (fun _ => []) (g_ben g)))) as [[f q]|], (g_calc ev cutoff s (MGen d' (map (fun _ => []) (g_ben g)))) as [[f' q']|]; cbn [both] in *; try contradiction; [|exact I].
  destruct Y as [Y Z]. cbn [fst snd] in Y, Z. subst q'. pose proof (combines_ren cutoff cutoff (length (c_pop (g_core g)) - cutoff) f f' q Y) as V. destruct (combine_muts ev cutoff cutoff (length (c_pop (g_core g)) - cutoff) (f, q)) as [[h p]|], (combine_muts ev cutoff cutoff (length (c_pop (g_core g)) - cutoff) (f', q)) as [[h' p']|]; cbn [both] in *; try contradiction; [|exact I].
  destruct V as [[V W] Z]. cbn [fst snd] in V, W, Z. subst p'. pose proof (update_ren sw _ _ V) as U. destruct (update_fitnesses ev sw (g_core h)), (update_fitnesses ev sw (g_core h')); cbn [both option_map] in *; try contradiction; [|exact I]. split; [|reflexivity]. split; [exact (next_ren _ _ U)|exact W].
Qed.
End Rename.

(** The arrays at the beginning. *)
Lemma init_at_cons {E} arrs refs r rs (e : E) : refs = r :: rs -> init_at arrs refs e = Some (Core (arrs ++ map (fun r => nth r arrs []) refs ++ [nth r arrs []]) refs (seq (length arrs) (length refs)) (length arrs + length refs) (repeat f0 (length refs)) (repeat [] (length refs)) f0 0 e).
Proof. intros ->. reflexivity. Qed.
Section Init.
Context {E : Type} (ev : evaluator E) (arrs : list (list npoint)) (refs : list nat).
Hypothesis (ND : NoDup refs) (IN : Forall (fun r => r < length arrs) refs).
Notation n := (length refs).
Definition place (a : nat) : nat := if a <? n then nth a refs 0 else length arrs + (a - n).
Lemma ref_in a : a < n -> nth a refs 0 < length arrs.
Proof. intros H. rewrite Forall_forall in IN. apply IN, nth_In, H. Qed.
Lemma place_inj a b : a < n + n + 1 -> b < n + n + 1 -> place a = place b -> a = b.
Proof.
  intros _ _. unfold place. destruct (Nat.ltb_spec a n) as [A|A], (Nat.ltb_spec b n) as [B|B]; intros H.
  - exact (proj1 (NoDup_nth refs 0) ND a b A B H).
  - pose proof (ref_in a A). lia.
  - pose proof (ref_in b B). lia.
  - lia.
Qed.
Lemma init_ren (e : E) : both (ren place (n + n + 1)) (init_core (map (fun r => nth r arrs []) refs) e) (init_at arrs refs e).
Proof.
  unfold init_core. destruct (map (fun r => nth r arrs []) refs) as [|g gs] eqn:M; [unfold init_at; destruct refs; [exact I|discriminate]|]. assert (Ln : length (g :: gs) = n) by (rewrite <- M; apply map_length). rewrite Ln.
  assert (H0 : exists r rs, refs = r :: rs /\ g = nth r arrs []) by (destruct refs as [|r rs]; [discriminate|]; exists r, rs; injection M as <- _; auto). destruct H0 as (r & rs & Er & Eg).
  assert (P1 : map place (seq 0 n) = refs).
  { apply nth_ext with (d := 0) (d' := 0); [rewrite map_length, seq_length; reflexivity|]. intros i Hi. rewrite map_length, seq_length in Hi. rewrite (nth_indep _ 0 (place 0)) by (rewrite map_length, seq_length; exact Hi). rewrite map_nth, seq_nth by exact Hi. unfold place. cbn [Nat.add]. destruct (Nat.ltb_spec i n); [reflexivity|lia]. }
  assert (P2 : map place (seq n n) = seq (length arrs) n).
  { apply nth_ext with (d := 0) (d' := 0); [rewrite map_length, !seq_length; reflexivity|]. intros i Hi. rewrite map_length, seq_length in Hi. rewrite (nth_indep _ 0 (place 0)) by (rewrite map_length, seq_length; exact Hi). rewrite map_nth, !seq_nth by exact Hi. unfold place. destruct (Nat.ltb_spec (n + i) n); lia. }
  assert (R : ren place (n + n + 1) (Core ((g :: gs) ++ (g :: gs) ++ [g]) (seq 0 n) (seq n n) (n + n) (repeat f0 n) (repeat [] n) f0 0 e) (Core (arrs ++ map (fun r => nth r arrs []) refs ++ [nth r arrs []]) refs (seq (length arrs) n) (length arrs + n) (repeat f0 n) (repeat [] n) f0 0 e)).
  { constructor; cbn [c_pop c_newpop c_best c_fits c_muts c_bestfit c_gen c_ev c_store]; try reflexivity; [symmetry; exact P1|symmetry; exact P2|unfold place; destruct (Nat.ltb_spec (n + n) n); lia| | | |lia].
    - split; [rewrite !app_length, Ln; cbn; lia|]. intros a Ha. unfold place. rewrite <- Eg, M, !app_length, Ln. cbn [length]. destruct (Nat.ltb_spec a n) as [A|A].
      + pose proof (ref_in a A). split; [lia|]. rewrite !app_nth1 by lia. rewrite <- M. rewrite (nth_indep (map (fun r => nth r arrs []) refs) [] (nth 0 arrs [])) by (rewrite map_length; exact A). rewrite (map_nth (fun r => nth r arrs []) refs 0 a). reflexivity.
      + split; [lia|]. rewrite app_nth2 by lia. rewrite (app_nth2 (g :: gs) ((g :: gs) ++ [g])) by (rewrite Ln; lia). rewrite Ln. f_equal. lia.
    - apply Forall_forall. intros x Hx. apply in_seq in Hx. lia.
    - apply Forall_forall. intros x Hx. apply in_seq in Hx. lia. }
  rewrite (init_at_cons arrs refs r rs e Er). exact R.
Qed.
End Init.
