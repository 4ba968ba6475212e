(** If one evaluator simulates another, the algorithms run alike on both. *)
From Coq Require Import ZArith List Bool Arith Lia.
From Verif Require Import GoNum M_Norm M_Slice M_Algo.
Import ListNotations.

Definition cmap {A B} (f : A -> B) (c : core A) : core B :=
  Core (c_store c) (c_pop c) (c_newpop c) (c_best c) (c_fits c) (c_muts c) (c_bestfit c) (c_gen c) (f (c_ev c)).

Section Sim.
Context {A B : Type} (ea : evaluator A) (eb : evaluator B) (f : A -> B) (ok : A -> Prop).
Hypothesis Scalc : forall a i pts log a' v, ok a -> ev_calc ea a i pts log = Some (a', v) -> ok a' /\ ev_calc eb (f a) i pts log = Some (f a', v).
Hypothesis Supd : forall a i a', ok a -> ev_update ea a i = Some a' -> ok a' /\ ev_update eb (f a) i = Some (f a').
Hypothesis Sprep : forall a a', ok a -> ev_prepare ea a = Some a' -> ok a' /\ ev_prepare eb (f a) = Some (f a').
Hypothesis Sbase : forall a i j a', ok a -> ev_base ea a i j = Some a' -> ok a' /\ ev_base eb (f a) i j = Some (f a').
Hypothesis Sswap : forall a i j a', ok a -> ev_swap ea a i j = Some a' -> ok a' /\ ev_swap eb (f a) i j = Some (f a').

Notation F := (cmap f).
Definition cok (c : core A) : Prop := ok (c_ev c).

Lemma sim_copy i j c c' : cok c -> copy_member i j c = Some c' -> cok c' /\ copy_member i j (F c) = Some (F c').
Proof.
  intros H. unfold copy_member. cbn [cmap c_newpop c_pop c_muts c_store].
  destruct (nth_error (c_newpop c) i); [|discriminate]. destruct (nth_error (c_pop c) j); [|discriminate]. destruct (put i [] (c_muts c)); [|discriminate].
  destruct (buf_set (c_store c) n n0); [|discriminate]. cbn [option_map]. intros [= <-]. split; [exact H|reflexivity].
Qed.
Lemma sim_new mu i j c c' : cok c -> new_member ea mu i j c = Some c' -> cok c' /\ new_member eb mu i j (F c) = Some (F c').
Proof.
  intros H. unfold new_member. destruct (copy_member i j c) as [c1|] eqn:E; [|discriminate]. destruct (sim_copy i j c c1 H E) as [H1 ->].
  cbn [cmap c_ev c_newpop]. destruct (ev_base ea (c_ev c1) i j) as [e|] eqn:Eb; [|discriminate]. destruct (Sbase _ _ _ _ H1 Eb) as [H2 ->].
  destruct (nth_error (c_newpop c1) i); [|discriminate]. unfold buf. cbn [cmap c_store]. change (c_store (F c1)) with (c_store c1). destruct (mu i (nth n (c_store c1) [])). intros [= <-]. split; [exact H2|reflexivity].
Qed.
Lemma sim_keep n : forall i c c', cok c -> keep_bases n i c = Some c' -> cok c' /\ keep_bases n i (F c) = Some (F c').
Proof.
  induction n as [|n IH]; intros i c c' H; cbn [keep_bases]; [intros [= <-]; auto|].
  destruct (copy_member i i c) as [c1|] eqn:E; [|discriminate]. destruct (sim_copy i i c c1 H E) as [H1 ->]. apply IH, H1.
Qed.
Lemma sim_inner mu n : forall j i lim c c' i', cok c -> inner_loop ea mu n j i lim c = Some (c', i') -> cok c' /\ inner_loop eb mu n j i lim (F c) = Some (F c', i').
Proof.
  induction n as [|n IH]; intros j i lim c c' i' H; cbn [inner_loop]; [intros [= <- <-]; auto|].
  destruct (i <? lim)%nat; [|intros [= <- <-]; auto]. destruct (new_member ea mu i j c) as [c1|] eqn:E; [|discriminate].
  destruct (sim_new mu i j c c1 H E) as [H1 ->]. apply IH, H1.
Qed.
Lemma sim_outer mu cutoff lim n : forall i c c', cok c -> outer_loop ea n mu cutoff i lim c = Some c' -> cok c' /\ outer_loop eb n mu cutoff i lim (F c) = Some (F c').
Proof.
  induction n as [|n IH]; intros i c c' H; cbn [outer_loop]; destruct (i <? lim)%nat; try discriminate; try (intros [= <-]; auto; fail).
  destruct (inner_loop ea mu cutoff 0 i lim c) as [[c1 i1]|] eqn:E; [|discriminate]. destruct (sim_inner mu cutoff 0 i lim c c1 i1 H E) as [H1 ->]. apply IH, H1.
Qed.
Lemma sim_gen mu cutoff lim c c' : cok c -> new_generation ea mu cutoff lim c = Some c' -> cok c' /\ new_generation eb mu cutoff lim (F c) = Some (F c').
Proof.
  intros H. unfold new_generation. destruct (keep_bases cutoff 0 c) as [c1|] eqn:E; [|discriminate]. destruct (sim_keep _ _ _ _ H E) as [H1 ->].
  destruct (outer_loop ea lim mu cutoff cutoff lim c1) as [c2|] eqn:E2; [|discriminate]. destruct (sim_outer _ _ _ _ _ _ _ H1 E2) as [H2 ->].
  intros [= <-]. split; [exact H2|reflexivity].
Qed.
Lemma sim_act c r a c' r' : cok c -> do_act ea (c, r) a = Some (c', r') -> cok c' /\ do_act eb (F c, r) a = Some (F c', r').
Proof.
  intros H. unfold do_act. destruct a as [|i|i]; cbn [cmap c_ev c_pop c_muts c_fits c_store].
  - destruct (ev_prepare ea (c_ev c)) as [e|] eqn:E; [|discriminate]. destruct (Sprep _ _ H E) as [H1 ->]. cbn [option_map]. intros [= <- <-]. split; [exact H1|reflexivity].
  - destruct (nth_error (c_pop c) i); [|discriminate]. destruct (nth_error (c_muts c) i); [|discriminate]. unfold buf. cbn [cmap c_store].
    destruct (ev_calc ea (c_ev c) i _ _) as [[e v]|] eqn:E; [|discriminate]. destruct (Scalc _ _ _ _ _ _ H E) as [H1 ->]. cbn [option_map fst snd]. intros [= <- <-]. split; [exact H1|reflexivity].
  - destruct (result r i); [|discriminate]. destruct (put i f0 (c_fits c)); [|discriminate]. destruct (ev_update ea (c_ev c) i) as [e|] eqn:E; [|discriminate].
    destruct (Supd _ _ _ H E) as [H1 ->]. intros [= <- <-]. split; [exact H1|reflexivity].
Qed.
Lemma sim_acts s : forall c r c' r', cok c -> do_acts ea s (c, r) = Some (c', r') -> cok c' /\ do_acts eb s (F c, r) = Some (F c', r').
Proof.
  induction s as [|a s IH]; intros c r c' r' H; cbn [do_acts]; [intros [= <- <-]; auto|].
  destruct (do_act ea (c, r) a) as [[c1 r1]|] eqn:E; [|discriminate]. destruct (sim_act _ _ _ _ _ H E) as [H1 ->]. apply IH, H1.
Qed.
Lemma sim_swaps sw : forall c c', cok c -> do_swaps ea sw c = Some c' -> cok c' /\ do_swaps eb sw (F c) = Some (F c').
Proof.
  induction sw as [|[i j] sw IH]; intros c c' H; cbn [do_swaps]; [intros [= <-]; auto|].
  unfold swap_members. cbn [cmap c_fits c_pop c_ev]. destruct (swap_at i j (c_fits c)); [|discriminate]. destruct (swap_at i j (c_pop c)); [|discriminate].
  destruct (ev_swap ea (c_ev c) i j) as [e|] eqn:E; [|discriminate]. destruct (Sswap _ _ _ _ H E) as [H1 ->]. intros K. apply IH in K; [|exact H1]. exact K.
Qed.
Lemma sim_update sw c c' : cok c -> update_fitnesses ea sw c = Some c' -> cok c' /\ update_fitnesses eb sw (F c) = Some (F c').
Proof.
  intros H. unfold update_fitnesses. destruct (do_swaps ea sw c) as [c1|] eqn:E; [|discriminate]. destruct (sim_swaps _ _ _ H E) as [H1 ->].
  unfold take_best. cbn [cmap c_pop c_fits c_store c_best]. destruct (nth_error (c_pop c1) 0); [|discriminate]. destruct (nth_error (c_fits c1) 0); [|discriminate].
  destruct (buf_set _ _ _); [|discriminate]. cbn [option_map]. intros [= <-]. split; [exact H1|reflexivity].
Qed.
Lemma sim_simple_calc s c c' r : cok c -> simple_calc ea s c = Some (c', r) -> cok c' /\ simple_calc eb s (F c) = Some (F c', r).
Proof. intros H. unfold simple_calc. cbn [cmap c_pop]. destruct (_ =? 0)%nat; [discriminate|]. apply sim_acts, H. Qed.
Lemma sim_simple_step cutoff mu s sw c c' r : cok c -> simple_step ea cutoff mu s sw c = Some (c', r) -> cok c' /\ simple_step eb cutoff mu s sw (F c) = Some (F c', r).
Proof.
  intros H. unfold simple_step. change (c_pop (F c)) with (c_pop c). destruct (new_generation ea mu cutoff (length (c_pop c)) c) as [c1|] eqn:E; [|discriminate].
  destruct (sim_gen _ _ _ _ _ H E) as [H1 ->].
  destruct (simple_calc ea s c1) as [[c2 r2]|] eqn:E2; [|discriminate]. destruct (sim_simple_calc _ _ _ _ H1 E2) as [H2 ->].
  destruct (update_fitnesses ea sw c2) as [c3|] eqn:E3; [|discriminate]. destruct (sim_update _ _ _ H2 E3) as [H3 ->]. intros [= <- <-]. split; [exact H3|reflexivity].
Qed.
Lemma sim_init groups e c : ok e -> init_core groups e = Some c -> cok c /\ init_core groups (f e) = Some (F c).
Proof. intros H. unfold init_core. destruct groups; [discriminate|]. intros [= <-]. split; [exact H|reflexivity]. Qed.
Lemma sim_new_simple groups e s sw c r : ok e -> new_simple ea groups e s sw = Some (c, r) -> cok c /\ new_simple eb groups (f e) s sw = Some (F c, r).
Proof.
  intros H. unfold new_simple. destruct (init_core groups e) as [c1|] eqn:E; [|discriminate]. destruct (sim_init _ _ _ H E) as [H1 ->].
  destruct (simple_calc ea s c1) as [[c2 r2]|] eqn:E2; [|discriminate]. destruct (sim_simple_calc _ _ _ _ H1 E2) as [H2 ->].
  destruct (update_fitnesses ea sw c2) as [c3|] eqn:E3; [|discriminate]. destruct (sim_update _ _ _ H2 E3) as [H3 ->]. intros [= <- <-]. split; [exact H3|reflexivity].
Qed.

(** modifiedGenetic *)
Definition gmap (g : mgen A) : mgen B := MGen (F (g_core g)) (g_ben g).
Definition gok (g : mgen A) : Prop := cok (g_core g).
Lemma sim_g_act cutoff g r a g' r' : gok g -> g_act ea cutoff (g, r) a = Some (g', r') -> gok g' /\ g_act eb cutoff (gmap g, r) a = Some (gmap g', r').
Proof.
  intros H. unfold g_act. cbn [gmap g_core g_ben]. destruct (do_act ea (g_core g, r) a) as [[c1 r1]|] eqn:E; [|discriminate]. destruct (sim_act _ _ _ _ _ H E) as [H1 ->].
  destruct a as [|i|i]; try (intros [= <- <-]; split; [exact H1|reflexivity]).
  destruct (get_base cutoff i) as [b|]; [|discriminate]. cbn [cmap c_fits c_muts]. destruct (b <? length (c_fits c1))%nat; [|discriminate].
  destruct (flt _ _); [|intros [= <- <-]; split; [exact H1|reflexivity]].
  destruct (set_beneficial _ _ _ _ _); [|discriminate]. cbn [option_map]. intros [= <- <-]. split; [exact H1|reflexivity].
Qed.
Lemma sim_g_acts cutoff s : forall g r g' r', gok g -> g_acts ea cutoff s (g, r) = Some (g', r') -> gok g' /\ g_acts eb cutoff s (gmap g, r) = Some (gmap g', r').
Proof.
  induction s as [|a s IH]; intros g r g' r' H; cbn [g_acts]; [intros [= <- <-]; auto|].
  destruct (g_act ea cutoff (g, r) a) as [[g1 r1]|] eqn:E; [|discriminate]. destruct (sim_g_act _ _ _ _ _ _ H E) as [H1 ->]. apply IH, H1.
Qed.
Lemma sim_g_calc cutoff s g g' r : gok g -> g_calc ea cutoff s g = Some (g', r) -> gok g' /\ g_calc eb cutoff s (gmap g) = Some (gmap g', r).
Proof. intros H. unfold g_calc. cbn [gmap g_core cmap c_pop]. destruct (_ <=? _)%nat; [discriminate|]. apply sim_g_acts, H. Qed.
Lemma sim_combine_one cutoff i g r g' r' : gok g -> combine_one ea cutoff i (g, r) = Some (g', r') -> gok g' /\ combine_one eb cutoff i (gmap g, r) = Some (gmap g', r').
Proof.
  intros H. unfold combine_one. cbn [gmap g_core g_ben cmap c_muts c_pop c_fits c_store c_ev].
  destruct (put i [] (c_muts (g_core g))) as [m0|]; [|discriminate]. destruct (get_base cutoff i) as [b|]; [|discriminate]. destruct (nth_error (c_pop (g_core g)) i) as [a|]; [|discriminate].
  destruct (nth_error (g_ben g) b) as [[|bm bs]|]; [| |discriminate].
  { destruct (put i f0 (c_fits (g_core g))); [|discriminate]. cbn [option_map]. intros [= <- <-]. split; [exact H|reflexivity]. }
  destruct (nth_error (c_pop (g_core g)) b) as [ab|]; [|discriminate]. destruct (ev_base ea _ i b) as [e1|] eqn:E1; [|discriminate]. destruct (Sbase _ _ _ _ H E1) as [H1 ->].
  destruct (buf_set _ a ab) as [st1|]; [|discriminate]. destruct (apply_muts _ _) as [pts|]; [|discriminate].
  destruct (ev_calc ea e1 i pts _) as [[e2 v]|] eqn:E2; [|discriminate]. destruct (Scalc _ _ _ _ _ _ H1 E2) as [H2 ->].
  destruct (put i v _) as [fs|]; [|discriminate]. destruct (ev_update ea e2 i) as [e3|] eqn:E3; [|discriminate]. destruct (Supd _ _ _ H2 E3) as [H3 ->].
  intros [= <- <-]. split; [exact H3|reflexivity].
Qed.
Lemma sim_combine cutoff n : forall i g r g' r', gok g -> combine_muts ea cutoff n i (g, r) = Some (g', r') -> gok g' /\ combine_muts eb cutoff n i (gmap g, r) = Some (gmap g', r').
Proof.
  induction n as [|n IH]; intros i g r g' r' H; cbn [combine_muts]; [intros [= <- <-]; auto|].
  destruct (combine_one ea cutoff i (g, r)) as [[g1 r1]|] eqn:E; [|discriminate]. destruct (sim_combine_one _ _ _ _ _ _ H E) as [H1 ->]. apply IH, H1.
Qed.
Lemma sim_genetic_step cutoff mu s sw g g' r : gok g -> genetic_step ea cutoff mu s sw g = Some (g', r) -> gok g' /\ genetic_step eb cutoff mu s sw (gmap g) = Some (gmap g', r).
Proof.
  intros H. unfold genetic_step. cbn [gmap g_core g_ben]. change (c_pop (F (g_core g))) with (c_pop (g_core g)).
  destruct (new_generation ea mu cutoff _ (g_core g)) as [c1|] eqn:E; [|discriminate]. destruct (sim_gen _ _ _ _ _ H E) as [H1 ->].
  destruct (g_calc ea cutoff s (MGen c1 _)) as [[g2 r2]|] eqn:E2; [|discriminate]. destruct (sim_g_calc _ _ (MGen c1 (map (fun _ => []) (g_ben g))) _ _ H1 E2) as [H2 E2'].
  unfold gmap in E2'. cbn [g_core g_ben] in E2'. rewrite E2'. fold (gmap g2).
  destruct (combine_muts ea cutoff cutoff _ (g2, r2)) as [[g3 r3]|] eqn:E3; [|discriminate]. destruct (sim_combine _ _ _ _ _ _ _ H2 E3) as [H3 ->].
  cbn [gmap g_core g_ben]. destruct (update_fitnesses ea sw (g_core g3)) as [c4|] eqn:E4; [|discriminate]. destruct (sim_update _ _ _ H3 E4) as [H4 ->].
  intros [= <- <-]. split; [exact H4|reflexivity].
Qed.
Lemma sim_new_genetic cutoff groups e s sw g r : ok e -> new_genetic ea cutoff groups e s sw = Some (g, r) -> gok g /\ new_genetic eb cutoff groups (f e) s sw = Some (gmap g, r).
Proof.
  intros H. unfold new_genetic. destruct (init_core groups e) as [c1|] eqn:E; [|discriminate]. destruct (sim_init _ _ _ H E) as [H1 ->].
  destruct (g_calc ea cutoff s (MGen c1 _)) as [[g2 r2]|] eqn:E2; [|discriminate]. destruct (sim_g_calc _ _ (MGen c1 (repeat [] cutoff)) _ _ H1 E2) as [H2 E2'].
  unfold gmap in E2'. cbn [g_core g_ben] in E2'. rewrite E2'. cbn [g_core g_ben].
  destruct (update_fitnesses ea sw (g_core g2)) as [c4|] eqn:E4; [|discriminate]. destruct (sim_update _ _ _ H2 E4) as [H4 ->].
  intros [= <- <-]. split; [exact H4|reflexivity].
Qed.
End Sim.
