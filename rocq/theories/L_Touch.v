(** What a caller writes into the points Best returned, between Steps, is not read. *)
From Coq Require Import ZArith List Bool Arith Lia.
From Verif Require Import GoNum M_Norm M_Slice M_Algo L_Slice L_Algo L_Shared.
Import ListNotations.
Local Open Scope nat_scope.

Section Touch.
Context {E : Type} (ev : evaluator E) (B : nat).
Definition sren (st st' : list (list npoint)) : Prop := length st = length st' /\ length (nth B st []) = length (nth B st' []) /\ forall a, a <> B -> nth a st' [] = nth a st [].
Record ren (c c' : core E) : Prop := {
  rn_pop : c_pop c' = c_pop c; rn_new : c_newpop c' = c_newpop c; rn_best : c_best c' = c_best c;
  rn_fits : c_fits c' = c_fits c; rn_muts : c_muts c' = c_muts c; rn_bf : c_bestfit c' = c_bestfit c; rn_gen : c_gen c' = c_gen c; rn_ev : c_ev c' = c_ev c;
  rn_st : sren (c_store c) (c_store c'); rn_ip : Forall (fun a => a <> B) (c_pop c); rn_in : Forall (fun a => a <> B) (c_newpop c); rn_ib : c_best c = B }.
Lemma ren_refl c : Forall (fun a => a <> B) (c_pop c) -> Forall (fun a => a <> B) (c_newpop c) -> c_best c = B -> ren c c.
Proof. intros P Q0 A. constructor; auto. split; [reflexivity|]. split; [reflexivity|]. reflexivity. Qed.
Lemma sren_set st st' a v : sren st st' -> a <> B -> sren (set_nth a v st) (set_nth a v st').
Proof.
  intros (L & M & H) Ha. split; [rewrite !set_nth_length; exact L|]. split.
  - rewrite !nth_set_nth. destruct (Nat.eqb_spec a B) as [X|_]; [contradiction|]. exact M.
  - intros b Hb. rewrite !nth_set_nth, L, (H b Hb). reflexivity.
Qed.
Lemma buf_ren c c' a : ren c c' -> a <> B -> buf c' a = buf c a.
Proof. intros R Ha. exact (proj2 (proj2 (rn_st c c' R)) a Ha). Qed.
Lemma bufset_ren st st' a b : sren st st' -> a <> B -> b <> B -> both sren (buf_set st a b) (buf_set st' a b).
Proof.
  intros R Ha Hb. unfold buf_set. rewrite (proj2 (proj2 R) a Ha), (proj2 (proj2 R) b Hb). destruct (length (nth a st []) =? length (nth b st [])); [|exact I]. cbn [both]. apply sren_set; assumption.
Qed.
Lemma nth_in l i a : Forall (fun a => a <> B) l -> nth_error l i = Some a -> a <> B.
Proof. intros F X. rewrite Forall_forall in F. apply F, (nth_error_In _ _ X). Qed.

Lemma copy_ren i j c c' : ren c c' -> both ren (copy_member i j c) (copy_member i j c').
Proof.
  intros R. unfold copy_member. rewrite (rn_pop _ _ R), (rn_new _ _ R), (rn_muts _ _ R).
  destruct (nth_error (c_newpop c) i) as [a|] eqn:Ea; cbn [option_map]; [|exact I]. destruct (nth_error (c_pop c) j) as [b|] eqn:Eb; cbn [option_map]; [|exact I]. destruct (put i [] (c_muts c)) as [m|]; [|exact I].
  pose proof (bufset_ren _ _ a b (rn_st _ _ R) (nth_in _ _ _ (rn_in _ _ R) Ea) (nth_in _ _ _ (rn_ip _ _ R) Eb)) as B0. destruct (buf_set (c_store c) a b), (buf_set (c_store c') a b); cbn [both option_map] in *; try contradiction; [|exact I].
  destruct R. constructor; auto.
Qed.
Lemma member_ren mu i j c c' : ren c c' -> both ren (new_member ev mu i j c) (new_member ev mu i j c').
Proof.
  intros R. unfold new_member. pose proof (copy_ren i j c c' R) as X. destruct (copy_member i j c) as [d|], (copy_member i j c') as [d'|]; cbn [both] in *; try contradiction; [|exact I].
  rewrite (rn_ev _ _ X), (rn_new _ _ X). destruct (ev_base ev (c_ev d) i j); [|exact I]. destruct (nth_error (c_newpop d) i) as [a|] eqn:Ea; cbn [option_map]; [|exact I]. pose proof (nth_in _ _ _ (rn_in _ _ X) Ea) as Ha.
  rewrite (buf_ren _ _ a X Ha). destruct (mu i (buf d a)) as [p l]. cbn [both]. destruct X. constructor; auto; cbn; [congruence|]. apply sren_set; assumption.
Qed.
Lemma keep_ren n : forall i c c', ren c c' -> both ren (keep_bases n i c) (keep_bases n i c').
Proof. induction n as [|n IH]; intros i c c' R; cbn [keep_bases]; [exact R|]. pose proof (copy_ren i i c c' R) as X. destruct (copy_member i i c), (copy_member i i c'); cbn [both] in *; try contradiction; [|exact I]. apply IH, X. Qed.
Definition ren_with {B} (p q : core E * B) : Prop := ren (fst p) (fst q) /\ snd p = snd q.
Lemma inner_ren mu n : forall j i lim c c', ren c c' -> both ren_with (inner_loop ev mu n j i lim c) (inner_loop ev mu n j i lim c').
Proof.
  induction n as [|n IH]; intros j i lim c c' R; cbn [inner_loop]; [split; [exact R|reflexivity]|]. destruct (i <? lim); [|split; [exact R|reflexivity]].
  pose proof (member_ren mu i j c c' R) as X. destruct (new_member ev mu i j c), (new_member ev mu i j c'); cbn [both] in *; try contradiction; [|exact I]. apply IH, X.
Qed.
Lemma outer_ren mu cutoff lim n : forall i c c', ren c c' -> both ren (outer_loop ev n mu cutoff i lim c) (outer_loop ev n mu cutoff i lim c').
Proof.
  induction n as [|n IH]; intros i c c' R; cbn [outer_loop]; destruct (i <? lim); try exact R; try exact I.
  pose proof (inner_ren mu cutoff 0 i lim c c' R) as X. destruct (inner_loop ev mu cutoff 0 i lim c) as [[d k]|], (inner_loop ev mu cutoff 0 i lim c') as [[d' k']|]; cbn [both] in *; try contradiction; [|exact I].
  destruct X as [X Y]. cbn [fst snd] in X, Y. subst k'. apply IH, X.
Qed.
Lemma gen_ren mu cutoff lim c c' : ren c c' -> both ren (new_generation ev mu cutoff lim c) (new_generation ev mu cutoff lim c').
Proof.
  intros R. unfold new_generation. pose proof (keep_ren cutoff 0 c c' R) as X. destruct (keep_bases cutoff 0 c) as [d|], (keep_bases cutoff 0 c') as [d'|]; cbn [both] in *; try contradiction; [|exact I].
  pose proof (outer_ren mu cutoff lim lim cutoff d d' X) as Y. destruct (outer_loop ev lim mu cutoff cutoff lim d) as [f|], (outer_loop ev lim mu cutoff cutoff lim d') as [f'|]; cbn [both] in *; try contradiction; [|exact I].
  destruct Y. constructor; auto.
Qed.
Lemma act_ren c c' r a : ren c c' -> both ren_with (do_act ev (c, r) a) (do_act ev (c', r) a).
Proof.
  intros R. unfold do_act. destruct a as [|i|i].
  - rewrite (rn_ev _ _ R). destruct (ev_prepare ev (c_ev c)); cbn [option_map both]; [|exact I]. split; [|reflexivity]. destruct R. constructor; auto.
  - rewrite (rn_pop _ _ R), (rn_muts _ _ R), (rn_ev _ _ R). destruct (nth_error (c_pop c) i) as [a|] eqn:Ea; cbn [option_map]; [|exact I]. destruct (nth_error (c_muts c) i); [|exact I].
    rewrite (buf_ren _ _ a R (nth_in _ _ _ (rn_ip _ _ R) Ea)). destruct (ev_calc ev (c_ev c) i (buf c a) l) as [[e f]|]; cbn [option_map both]; [|exact I]. split; [|reflexivity]. destruct R. constructor; auto.
  - destruct (result r i); [|exact I]. rewrite (rn_fits _ _ R), (rn_ev _ _ R). destruct (put i f (c_fits c)); [|exact I]. destruct (ev_update ev (c_ev c) i); [|exact I]. cbn [both]. split; [|reflexivity]. destruct R. constructor; auto.
Qed.
Lemma acts_ren s : forall c c' r, ren c c' -> both ren_with (do_acts ev s (c, r)) (do_acts ev s (c', r)).
Proof.
  induction s as [|a s IH]; intros c c' r R; cbn [do_acts]; [split; [exact R|reflexivity]|]. pose proof (act_ren c c' r a R) as X. destruct (do_act ev (c, r) a) as [[d q]|], (do_act ev (c', r) a) as [[d' q']|]; cbn [both] in *; try contradiction; [|exact I].
  destruct X as [X Y]. cbn [fst snd] in X, Y. subst q'. apply IH, X.
Qed.
Lemma swap_in i j l l' : Forall (fun a => a <> B) l -> swap_at i j l = Some l' -> Forall (fun a => a <> B) l'.
Proof.
  intros F. unfold swap_at. destruct (nth_error l i) as [a|] eqn:Ea; [|discriminate]. destruct (nth_error l j) as [b|] eqn:Eb; [|discriminate]. intros [= <-].
  assert (M : forall k v l, v <> B -> Forall (fun a => a <> B) l -> Forall (fun a => a <> B) (set_nth k v l)) by (clear; intros k v l Hv; revert k; induction l as [|x l IH]; intros [|k] F; cbn; inversion F; subst; auto).
  apply M; [exact (nth_in _ _ _ F Ea)|]. apply M; [exact (nth_in _ _ _ F Eb)|exact F].
Qed.
Lemma swaps_ren sw : forall c c', ren c c' -> both ren (do_swaps ev sw c) (do_swaps ev sw c').
Proof.
  induction sw as [|[i j] sw IH]; intros c c' R; cbn [do_swaps]; [exact R|]. unfold swap_members. rewrite (rn_fits _ _ R), (rn_pop _ _ R), (rn_ev _ _ R).
  destruct (swap_at i j (c_fits c)); [|exact I]. destruct (swap_at i j (c_pop c)) as [p|] eqn:P; cbn [option_map]; [|exact I]. destruct (ev_swap ev (c_ev c) i j); [|exact I]. apply IH. pose proof (swap_in _ _ _ _ (rn_ip _ _ R) P). destruct R. constructor; auto.
Qed.
Lemma store_eq st st' a : sren st st' -> a <> B -> buf_set st B a = buf_set st' B a.
Proof.
  intros (L & M & H) Ha. unfold buf_set. rewrite M, (H a Ha). destruct (_ =? _); [|reflexivity]. f_equal. apply (nth_ext _ _ [] []); rewrite ?set_nth_length; [exact L|]. intros k Lk. rewrite !nth_set_nth, L. destruct (Nat.eqb_spec B k) as [<-|N]; [|symmetry; apply H; congruence].
  destruct (Nat.ltb_spec B (length st')); [reflexivity|lia].
Qed.
Lemma update_eq sw c c' : ren c c' -> update_fitnesses ev sw c = update_fitnesses ev sw c'.
Proof.
  intros R. unfold update_fitnesses. pose proof (swaps_ren sw c c' R) as X. destruct (do_swaps ev sw c) as [d|], (do_swaps ev sw c') as [d'|]; cbn [both] in *; try contradiction; [|reflexivity].
  unfold take_best. rewrite (rn_pop _ _ X), (rn_fits _ _ X), (rn_new _ _ X), (rn_muts _ _ X), (rn_gen _ _ X), (rn_ev _ _ X), (rn_best _ _ X). destruct (nth_error (c_pop d) 0) as [a|] eqn:Ea; [|reflexivity]. destruct (nth_error (c_fits d) 0); [|reflexivity].
  rewrite (rn_ib _ _ X). rewrite (store_eq _ _ a (rn_st _ _ X) (nth_in _ _ _ (rn_ip _ _ X) Ea)). reflexivity.
Qed.
Lemma update_ren sw c c' : ren c c' -> both ren (update_fitnesses ev sw c) (update_fitnesses ev sw c').
Proof.
  intros R. rewrite <- (update_eq sw c c' R). unfold update_fitnesses. pose proof (swaps_ren sw c c' R) as X. destruct (do_swaps ev sw c) as [d|], (do_swaps ev sw c') as [d'|]; cbn [both] in *; try contradiction; [|exact I].
  unfold take_best. destruct (nth_error (c_pop d) 0) as [a|]; [|exact I]. destruct (nth_error (c_fits d) 0); [|exact I]. destruct (buf_set (c_store d) (c_best d) a); cbn [both option_map]; [|exact I]. apply ren_refl; cbn; [exact (rn_ip _ _ X)|exact (rn_in _ _ X)|exact (rn_ib _ _ X)].
Qed.
Lemma next_ren c c' : ren c c' -> ren (next_gen c) (next_gen c').
Proof. intros R. destruct R. constructor; auto. cbn. congruence. Qed.
Lemma calc_ren s c c' : ren c c' -> both ren_with (simple_calc ev s c) (simple_calc ev s c').
Proof. intros R. unfold simple_calc. rewrite (rn_pop _ _ R). destruct (length (c_pop c) =? 0); [exact I|apply acts_ren, R]. Qed.
Lemma step_ren cutoff mu s sw c c' : ren c c' -> both ren_with (simple_step ev cutoff mu s sw c) (simple_step ev cutoff mu s sw c').
Proof.
  intros R. unfold simple_step. rewrite (rn_pop _ _ R). pose proof (gen_ren mu cutoff (length (c_pop c)) c c' R) as X. destruct (new_generation ev mu cutoff (length (c_pop c)) c) as [d|], (new_generation ev mu cutoff (length (c_pop c)) c') as [d'|]; cbn [both] in *; try contradiction; [|exact I].
  pose proof (calc_ren s d d' X) as Y. destruct (simple_calc ev s d) as [[f q]|], (simple_calc ev s d') as [[f' q']|]; cbn [both] in *; try contradiction; [|exact I]. destruct Y as [Y Z]. cbn [fst snd] in Y, Z. subst q'.
  pose proof (update_ren sw f f' Y) as U. destruct (update_fitnesses ev sw f), (update_fitnesses ev sw f'); cbn [both option_map] in *; try contradiction; [|exact I]. split; [exact (next_ren _ _ U)|reflexivity].
Qed.

(** modifiedGenetic *)
Definition gren (g g' : mgen E) : Prop := ren (g_core g) (g_core g') /\ g_ben g = g_ben g'.
Definition gren_with (p q : mgen E * results) : Prop := gren (fst p) (fst q) /\ snd p = snd q.
Lemma gact_ren cutoff a g g' r : gren g g' -> both gren_with (g_act ev cutoff (g, r) a) (g_act ev cutoff (g', r) a).
Proof.
  intros [R B0]. unfold g_act. pose proof (act_ren (g_core g) (g_core g') r a R) as X. destruct (do_act ev (g_core g, r) a) as [[d q]|], (do_act ev (g_core g', r) a) as [[d' q']|]; cbn [both] in *; try contradiction; [|exact I]. destruct X as [X Y]. cbn [fst snd] in X, Y. subst q'.
  assert (S0 : forall b, gren_with (MGen d b, q) (MGen d' b, q)) by (intros b; split; [split; [exact X|reflexivity]|reflexivity]).
  destruct a as [|i|i]; [rewrite <- B0; apply S0|rewrite <- B0; apply S0|]. destruct (get_base cutoff i); [|exact I]. rewrite (rn_fits _ _ X), (rn_muts _ _ X), <- B0. destruct (n <? length (c_fits d)); [|exact I]. destruct (flt _ _); [|apply S0].
  destruct (set_beneficial cutoff i (c_fits d) (c_muts d) (g_ben g)); cbn [option_map both]; [apply S0|exact I].
Qed.
Lemma gacts_ren cutoff s : forall g g' r, gren g g' -> both gren_with (g_acts ev cutoff s (g, r)) (g_acts ev cutoff s (g', r)).
Proof.
  induction s as [|a s IH]; intros g g' r R; cbn [g_acts]; [split; [exact R|reflexivity]|]. pose proof (gact_ren cutoff a g g' r R) as X. destruct (g_act ev cutoff (g, r) a) as [[d q]|], (g_act ev cutoff (g', r) a) as [[d' q']|]; cbn [both] in *; try contradiction; [|exact I].
  destruct X as [X Y]. cbn [fst snd] in X, Y. subst q'. apply IH, X.
Qed.
Lemma gcalc_ren cutoff s g g' : gren g g' -> both gren_with (g_calc ev cutoff s g) (g_calc ev cutoff s g').
Proof. intros R. unfold g_calc. rewrite (rn_pop _ _ (proj1 R)). destruct (length (c_pop (g_core g)) <=? cutoff); [exact I|apply gacts_ren, R]. Qed.
Lemma combine_ren cutoff i g g' r : gren g g' -> both gren_with (combine_one ev cutoff i (g, r)) (combine_one ev cutoff i (g', r)).
Proof.
  intros [R B0]. unfold combine_one. rewrite (rn_muts _ _ R), (rn_pop _ _ R). destruct (put i [] (c_muts (g_core g))) as [m0|]; [|exact I]. destruct (get_base cutoff i) as [b|]; [|exact I]. destruct (nth_error (c_pop (g_core g)) i) as [a|] eqn:Ea; cbn [option_map]; [|exact I].
  rewrite <- B0. destruct (nth_error (g_ben g) b) as [[|bm0 bm]|]; [| |exact I].
  - rewrite (rn_fits _ _ R). destruct (put i f0 (c_fits (g_core g))); cbn [option_map both]; [|exact I]. split; [|reflexivity]. split; [|reflexivity]. cbn [fst g_core]. destruct R. constructor; auto.
  - rewrite (rn_ev _ _ R). destruct (nth_error (c_pop (g_core g)) b) as [ab|] eqn:Eb; cbn [option_map]; [|exact I]. destruct (ev_base ev (c_ev (g_core g)) i b) as [e1|]; [|exact I].
    pose proof (nth_in _ _ _ (rn_ip _ _ R) Ea) as Ha. pose proof (nth_in _ _ _ (rn_ip _ _ R) Eb) as Hb. pose proof (bufset_ren _ _ a ab (rn_st _ _ R) Ha Hb) as X. destruct (buf_set (c_store (g_core g)) a ab) as [st|], (buf_set (c_store (g_core g')) a ab) as [st'|]; cbn [both] in X; try contradiction; [|exact I].
    rewrite (proj2 (proj2 X) a Ha). destruct (apply_muts (map fst (bm0 :: bm)) (nth a st [])) as [pts|]; [|exact I]. destruct (ev_calc ev e1 i pts (map fst (bm0 :: bm))) as [[e2 f]|]; [|exact I]. rewrite (rn_fits _ _ R). destruct (put i f (c_fits (g_core g))); [|exact I]. destruct (ev_update ev e2 i); [|exact I]. cbn [both].
    split; [|reflexivity]. split; [|reflexivity]. cbn [fst g_core]. destruct R. constructor; auto. apply sren_set; assumption.
Qed.
Lemma combines_ren cutoff n : forall i g g' r, gren g g' -> both gren_with (combine_muts ev cutoff n i (g, r)) (combine_muts ev cutoff n i (g', r)).
Proof.
  induction n as [|n IH]; intros i g g' r R; cbn [combine_muts]; [split; [exact R|reflexivity]|]. pose proof (combine_ren cutoff i g g' r R) as X. destruct (combine_one ev cutoff i (g, r)) as [[d q]|], (combine_one ev cutoff i (g', r)) as [[d' q']|]; cbn [both] in *; try contradiction; [|exact I].
  destruct X as [X Y]. cbn [fst snd] in X, Y. subst q'. apply IH, X.
Qed.
Lemma gstep_ren cutoff mu s sw g g' : gren g g' -> both gren_with (genetic_step ev cutoff mu s sw g) (genetic_step ev cutoff mu s sw g').
Proof.
  intros [R B0]. unfold genetic_step. rewrite (rn_pop _ _ R). pose proof (gen_ren mu cutoff (length (c_pop (g_core g)) - cutoff) _ _ R) as X. destruct (new_generation ev mu cutoff (length (c_pop (g_core g)) - cutoff) (g_core g)) as [d|], (new_generation ev mu cutoff (length (c_pop (g_core g)) - cutoff) (g_core g')) as [d'|]; cbn [both] in *; try contradiction; [|exact I].
  rewrite <- B0. pose proof (gcalc_ren cutoff s (MGen d (map (fun _ => []) (g_ben g))) (MGen d' (map (fun _ => []) (g_ben g))) (conj X eq_refl)) as Y. destruct (g_calc ev cutoff s (MGen d (map (fun _ => []) (g_ben g)))) as [[f q]|], (g_calc ev cutoff s (MGen d' (map (fun _ => []) (g_ben g)))) as [[f' q']|]; cbn [both] in *; try contradiction; [|exact I].
  destruct Y as [Y Z]. cbn [fst snd] in Y, Z. subst q'. pose proof (combines_ren cutoff cutoff (length (c_pop (g_core g)) - cutoff) f f' q Y) as V. destruct (combine_muts ev cutoff cutoff (length (c_pop (g_core g)) - cutoff) (f, q)) as [[h p]|], (combine_muts ev cutoff cutoff (length (c_pop (g_core g)) - cutoff) (f', q)) as [[h' p']|]; cbn [both] in *; try contradiction; [|exact I].
  destruct V as [[V W] Z]. cbn [fst snd] in V, W, Z. subst p'. pose proof (update_ren sw _ _ V) as U. destruct (update_fitnesses ev sw (g_core h)), (update_fitnesses ev sw (g_core h')); cbn [both option_map] in *; try contradiction; [|exact I]. split; [|reflexivity]. split; [exact (next_ren _ _ U)|exact W].
Qed.

Lemma step_eq cutoff mu s sw c c' : ren c c' -> simple_step ev cutoff mu s sw c = simple_step ev cutoff mu s sw c'.
Proof.
  intros R. unfold simple_step. rewrite (rn_pop _ _ R). pose proof (gen_ren mu cutoff (length (c_pop c)) c c' R) as X. destruct (new_generation ev mu cutoff (length (c_pop c)) c) as [d|], (new_generation ev mu cutoff (length (c_pop c)) c') as [d'|]; cbn [both] in *; try contradiction; [|reflexivity].
  pose proof (calc_ren s d d' X) as Y. destruct (simple_calc ev s d) as [[f q]|], (simple_calc ev s d') as [[f' q']|]; cbn [both] in *; try contradiction; [|reflexivity]. destruct Y as [Y Z]. cbn [fst snd] in Y, Z. subst q'.
  rewrite (update_eq sw f f' Y). reflexivity.
Qed.
Lemma gstep_eq cutoff mu s sw g g' : gren g g' -> genetic_step ev cutoff mu s sw g = genetic_step ev cutoff mu s sw g'.
Proof.
  intros [R B0]. unfold genetic_step. rewrite (rn_pop _ _ R). pose proof (gen_ren mu cutoff (length (c_pop (g_core g)) - cutoff) _ _ R) as X. destruct (new_generation ev mu cutoff (length (c_pop (g_core g)) - cutoff) (g_core g)) as [d|], (new_generation ev mu cutoff (length (c_pop (g_core g)) - cutoff) (g_core g')) as [d'|]; cbn [both] in *; try contradiction; [|reflexivity].
  rewrite <- B0. pose proof (gcalc_ren cutoff s (MGen d (map (fun _ => []) (g_ben g))) (MGen d' (map (fun _ => []) (g_ben g))) (conj X eq_refl)) as Y. destruct (g_calc ev cutoff s (MGen d (map (fun _ => []) (g_ben g)))) as [[f q]|], (g_calc ev cutoff s (MGen d' (map (fun _ => []) (g_ben g)))) as [[f' q']|]; cbn [both] in *; try contradiction; [|reflexivity].
  destruct Y as [Y Z]. cbn [fst snd] in Y, Z. subst q'. pose proof (combines_ren cutoff cutoff (length (c_pop (g_core g)) - cutoff) f f' q Y) as V. destruct (combine_muts ev cutoff cutoff (length (c_pop (g_core g)) - cutoff) (f, q)) as [[h p]|], (combine_muts ev cutoff cutoff (length (c_pop (g_core g)) - cutoff) (f', q)) as [[h' p']|]; cbn [both] in *; try contradiction; [|reflexivity].
  destruct V as [[V W] Z]. cbn [fst snd] in V, W, Z. subst p'. rewrite (update_eq sw _ _ V), W. reflexivity.
Qed.
End Touch.

(** Best has an array of its own. *)
Definition apart {E} (c : core E) : Prop := Forall (fun a => a <> c_best c) (c_pop c) /\ Forall (fun a => a <> c_best c) (c_newpop c).
Lemma apart_ren {E} (c : core E) v : apart c -> length v = length (buf c (c_best c)) -> ren (c_best c) c (with_store c (set_nth (c_best c) v (c_store c))).
Proof.
  intros (P & N) L. constructor; auto. cbn. split; [rewrite set_nth_length; reflexivity|]. split.
  - rewrite nth_set_nth. destruct (_ && _); [symmetry; exact L|reflexivity].
  - intros a Ha. rewrite nth_set_nth. destruct (Nat.eqb_spec (c_best c) a) as [X|_]; [congruence|reflexivity].
Qed.
Lemma ren_apart {E} B (c c' : core E) : ren B c c' -> apart c.
Proof. intros R. split; rewrite (rn_ib _ _ _ R); [exact (rn_ip _ _ _ R)|exact (rn_in _ _ _ R)]. Qed.
Lemma apart_refl {E} (c : core E) : apart c -> ren (c_best c) c c.
Proof. intros (P & N). apply ren_refl; auto. Qed.
Lemma step_apart {E} (ev : evaluator E) cutoff mu s sw c c' r : apart c -> simple_step ev cutoff mu s sw c = Some (c', r) -> apart c'.
Proof. intros A H. pose proof (step_ren ev (c_best c) cutoff mu s sw c c (apart_refl c A)) as X. rewrite H in X. exact (ren_apart _ _ _ (proj1 X)). Qed.
Lemma gstep_apart {E} (ev : evaluator E) cutoff mu s sw g g' r : apart (g_core g) -> genetic_step ev cutoff mu s sw g = Some (g', r) -> apart (g_core g').
Proof. intros A H. pose proof (gstep_ren ev (c_best (g_core g)) cutoff mu s sw g g (conj (apart_refl _ A) eq_refl)) as X. rewrite H in X. exact (ren_apart _ _ _ (proj1 (proj1 X))). Qed.
Lemma init_apart {E} groups (e : E) c : init_core groups e = Some c -> apart c.
Proof.
  unfold init_core. destruct groups as [|g gs] eqn:G; [discriminate|]. rewrite <- G. intros H. apply (f_equal (option_map (fun c => (c_pop c, c_newpop c, c_best c)))) in H. cbn [option_map c_pop c_newpop c_best] in H. injection H as H1 H2 H3. unfold apart. rewrite <- H1, <- H2, <- H3. split; apply Forall_forall; intros a Ha; apply in_seq in Ha; lia.
Qed.
Lemma new_simple_apart {E} (ev : evaluator E) groups e s sw c r : new_simple ev groups e s sw = Some (c, r) -> apart c.
Proof.
  unfold new_simple. destruct (init_core groups e) as [c1|] eqn:I0; [|discriminate]. apply init_apart in I0. intros H. pose proof (calc_ren ev _ s _ _ (apart_refl _ I0)) as X. destruct (simple_calc ev s c1) as [[c2 r2]|]; [|discriminate H]. destruct X as (X & _). cbn [fst] in X.
  pose proof (update_ren ev _ sw _ _ X) as U. destruct (update_fitnesses ev sw c2) as [c3|]; [|discriminate H]. injection H as <- <-. exact (ren_apart _ _ _ U).
Qed.
Lemma new_genetic_apart {E} (ev : evaluator E) cutoff groups e s sw g r : new_genetic ev cutoff groups e s sw = Some (g, r) -> apart (g_core g).
Proof.
  unfold new_genetic. destruct (init_core groups e) as [c1|] eqn:I0; [|discriminate]. apply init_apart in I0. intros H. pose proof (gcalc_ren ev _ cutoff s (MGen c1 (repeat [] cutoff)) (MGen c1 (repeat [] cutoff)) (conj (apart_refl _ I0) eq_refl)) as X. destruct (g_calc ev cutoff s (MGen c1 (repeat [] cutoff))) as [[c2 r2]|]; [|discriminate H]. destruct X as ((X & _) & _). cbn [fst] in X.
  pose proof (update_ren ev _ sw _ _ X) as U. destruct (update_fitnesses ev sw (g_core c2)) as [c3|]; [|discriminate H]. injection H as <- <-. exact (ren_apart _ _ _ U).
Qed.
