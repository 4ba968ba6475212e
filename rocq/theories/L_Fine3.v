(** The states in which the workers are started satisfy what L_Fine asks for. *)
From Coq Require Import ZArith List Bool Arith Lia Permutation.
From Verif Require Import GoNum M_Norm M_Slice M_Geom M_Image M_Raster S_Norm M_Delaunay S_Delaunay M_Algo S_Algo M_Fitness S_Fitness S_Run S_MemRun S_Sched M_Fine.
From Verif Require Import L_PMap L_Slice L_Algo L_Algo2 L_Algo4 L_Algo5 L_Hold L_Fit L_Sim L_Fwd L_MemRun2 L_Race L_Sched L_Fine P_Algo P_Fitness P_Run P_Run2 P_Race P_Sched.
Import ListNotations.
Local Open Scope nat_scope.

(** The number of mutation lists does not change. *)
Section Muts.
Context {E : Type} (ev : evaluator E).
Notation m c := (length (c_muts c)).
Lemma put_len {A} i (v : A) l l' : put i v l = Some l' -> length l' = length l.
Proof. intros H. apply put_inv in H as [_ ->]. apply L_PMap.set_nth_length. Qed.
Lemma copy_muts i j (c c' : core E) : copy_member i j c = Some c' -> m c' = m c.
Proof.
  unfold copy_member. destruct (nth_error (c_newpop c) i); [|discriminate]. destruct (nth_error (c_pop c) j); [|discriminate]. destruct (put i [] (c_muts c)) as [l|] eqn:P; [|discriminate]. destruct (buf_set _ _ _); [|discriminate].
  cbn [option_map]. intros [= <-]. apply (put_len _ _ _ _ P).
Qed.
Lemma keep_muts k : forall i (c c' : core E), keep_bases k i c = Some c' -> m c' = m c.
Proof. induction k as [|k IH]; intros i c c'; cbn [keep_bases]; [intros [= <-]; reflexivity|]. destruct (copy_member i i c) as [c1|] eqn:E1; [|discriminate]. intros H. rewrite (IH _ _ _ H). apply (copy_muts _ _ _ _ E1). Qed.
Lemma member_muts mu i j c c' : new_member ev mu i j c = Some c' -> m c' = m c.
Proof.
  unfold new_member. destruct (copy_member i j c) as [c1|] eqn:E1; [|discriminate]. destruct (ev_base ev (c_ev c1) i j); [|discriminate]. destruct (nth_error (c_newpop c1) i); [|discriminate]. destruct (mu i _). intros [= <-].
  cbn [with_ev with_muts c_muts]. rewrite L_PMap.set_nth_length. apply (copy_muts _ _ _ _ E1).
Qed.
Lemma inner_muts mu k : forall j i lim c c' i', inner_loop ev mu k j i lim c = Some (c', i') -> m c' = m c.
Proof.
  induction k as [|k IH]; intros j i lim c c' i'; cbn [inner_loop]; [intros [= <- _]; reflexivity|]. destruct (i <? lim); [|intros [= <- _]; reflexivity]. destruct (new_member ev mu i j c) as [c1|] eqn:E1; [|discriminate].
  intros H. rewrite (IH _ _ _ _ _ _ H). apply (member_muts _ _ _ _ _ E1).
Qed.
Lemma outer_muts mu cutoff k : forall i lim c c', outer_loop ev k mu cutoff i lim c = Some c' -> m c' = m c.
Proof.
  induction k as [|k IH]; intros i lim c c'; cbn [outer_loop]; destruct (i <? lim); try discriminate; try (intros [= <-]; reflexivity). destruct (inner_loop ev mu cutoff 0 i lim c) as [[c1 i1]|] eqn:E1; [|discriminate].
  intros H. rewrite (IH _ _ _ _ H). apply (inner_muts _ _ _ _ _ _ _ _ E1).
Qed.
Lemma gen_muts mu cutoff lim c c' : new_generation ev mu cutoff lim c = Some c' -> m c' = m c.
Proof.
  unfold new_generation. destruct (keep_bases cutoff 0 c) as [c1|] eqn:E1; [|discriminate]. destruct (outer_loop ev lim mu cutoff cutoff lim c1) as [c2|] eqn:E2; [|discriminate]. intros [= <-]. cbn [c_muts].
  rewrite (outer_muts _ _ _ _ _ _ _ E2). apply (keep_muts _ _ _ _ E1).
Qed.
Lemma acts_muts s : forall c r c' r', do_acts ev s (c, r) = Some (c', r') -> m c' = m c.
Proof.
  induction s as [|a s IH]; intros c r c' r'; cbn [do_acts]; [intros [= <- _]; reflexivity|]. destruct (do_act ev (c, r) a) as [[c1 r1]|] eqn:E1; [|discriminate]. intros H. rewrite (IH _ _ _ _ H). revert E1. unfold do_act. destruct a as [|i|i].
  - destruct (ev_prepare ev (c_ev c)); [|discriminate]. intros [= <- _]. reflexivity.
  - destruct (nth_error (c_pop c) i); [|discriminate]. destruct (nth_error (c_muts c) i); [|discriminate]. destruct (ev_calc _ _ _ _ _) as [[e v]|]; [|discriminate]. intros [= <- _]. reflexivity.
  - destruct (result r i); [|discriminate]. destruct (put _ _ _); [|discriminate]. destruct (ev_update _ _ _); [|discriminate]. intros [= <- _]. reflexivity.
Qed.
Lemma swaps_muts sw : forall c c', do_swaps ev sw c = Some c' -> c_muts c' = c_muts c.
Proof.
  induction sw as [|[i j] sw IH]; intros c c'; cbn [do_swaps]; [intros [= <-]; reflexivity|]. destruct (swap_members ev c (i, j)) as [c1|] eqn:E1; [|discriminate]. intros H. rewrite (IH _ _ H). revert E1. unfold swap_members.
  destruct (swap_at i j (c_fits c)); [|discriminate]. destruct (swap_at i j (c_pop c)); [|discriminate]. destruct (ev_swap _ _ _ _); [|discriminate]. intros [= <-]. reflexivity.
Qed.
Lemma update_muts sw c c' : update_fitnesses ev sw c = Some c' -> c_muts c' = c_muts c.
Proof.
  unfold update_fitnesses. destruct (do_swaps ev sw c) as [c1|] eqn:E1; [|discriminate]. unfold take_best. destruct (nth_error (c_pop c1) 0); [|discriminate]. destruct (nth_error (c_fits c1) 0); [|discriminate]. destruct (buf_set _ _ _); [|discriminate].
  intros [= <-]. cbn [c_muts]. apply (swaps_muts _ _ _ E1).
Qed.
End Muts.

Lemma strip_nth p id : nth_error (b_funs (strip p)) id = option_map (fun f => (tf_tri f, tf_base f)) (nth_error (p_funs p) id).
Proof. unfold strip. cbn [b_funs]. apply nth_error_map. Qed.
Lemma start_of n lim p : lim <= n -> L_Race.ready n lim p -> calm (strip p) -> fit_start lim p.
Proof.
  intros L [W T] [Nd C]. constructor; [apply W|apply W|apply W|]. intros i Hi. destruct (pw_at _ _ W i ltac:(lia)) as (id & f & A). pose proof (T i Hi) as Tg. unfold tag in Tg. rewrite A in Tg. cbn [option_map snd] in Tg. apply at_pos_In in A as (A1 & A2 & _).
  exists id, f. split; [exact A1|]. split; [exact A2|]. split; [destruct Tg as [[= ->]|[= ->]]; auto|]. intros b Eb. destruct (C id (tf_tri f) b) as (d & Ed).
  - rewrite strip_nth, A2. cbn [option_map]. rewrite Eb. reflexivity.
  - rewrite strip_nth in Ed. destruct (nth_error (p_funs p) b) as [g|] eqn:Eg; [|discriminate]. cbn [option_map] in Ed. injection Ed as E1 E2. split; [intros ->; congruence|]. exists g, d. auto.
Qed.

(** Between the Steps of simple. *)
Section Simple.
Context (im : fimg) (srt : point -> list point -> option (list point)) (cutoff n pow2 : nat).
Hypothesis Hk : 1 <= pow2 <= 62.
Notation ea := (parallel im srt). Notation eb := (bare_ev im srt). Notation N := (Z.of_nat (Nat.pow 2 pow2)). Notation F := (cmap strip).
Notation HN := (pow_range pow2 Hk). Notation Live := (alive (plive im N) n).
Record between (c : core par) : Prop := { bt_ok : par_ok im (c_ev c); bt_live : Live c; bt_rest : at_rest (strip (c_ev c)); bt_both : both n c; bt_muts : length (c_muts c) = n }.
Lemma simple_muts mu s sw c c' r : simple_step ea cutoff mu s sw c = Some (c', r) -> length (c_muts c') = length (c_muts c).
Proof.
  unfold simple_step. destruct (new_generation ea mu cutoff _ c) as [c1|] eqn:G; [|discriminate]. unfold simple_calc. destruct (_ =? 0); [discriminate|]. destruct (do_acts ea s (c1, [])) as [[c2 r2]|] eqn:A; [|discriminate].
  destruct (update_fitnesses ea sw c2) as [c3|] eqn:U; [|discriminate]. intros [= <- _]. cbn [next_gen c_muts]. rewrite (update_muts _ _ _ _ U), (acts_muts _ _ _ _ _ _ A). apply (gen_muts _ _ _ _ _ _ G).
Qed.
Lemma init_muts groups (e : par) c : init_core groups e = Some c -> length (c_muts c) = length groups /\ both (length groups) c.
Proof. unfold init_core. destruct groups as [|g gs]; [discriminate|]. intros [= <-]. unfold both. cbn [c_muts c_pop c_newpop length]. rewrite ?repeat_length, ?seq_length. auto. Qed.
Lemma new_muts groups e s sw c r : new_simple ea groups e s sw = Some (c, r) -> length (c_muts c) = length groups.
Proof.
  unfold new_simple. destruct (init_core groups e) as [c1|] eqn:I; [|discriminate]. apply init_muts in I as [I _]. unfold simple_calc. destruct (_ =? 0); [discriminate|]. destruct (do_acts ea s (c1, [])) as [[c2 r2]|] eqn:A; [|discriminate].
  destruct (update_fitnesses ea sw c2) as [c3|] eqn:U; [|discriminate]. intros [= <- _]. rewrite (update_muts _ _ _ _ U), (acts_muts _ _ _ _ _ _ A). exact I.
Qed.
Lemma steps_between c : simple_steps im srt cutoff n pow2 c -> between c.
Proof.
  induction 1 as [groups s sw c r L V E|c mu s sw c' r _ IH V E].
  - destruct (new_parallel_ok im n pow2) as [O St].
    destruct (sim_new_simple ea eb strip (par_ok im) (par_calc_sim im srt) (par_upd_sim im srt) (par_prep_sim im srt) (par_swap_sim im srt) groups (new_parallel n pow2) s sw c r O E) as [O1 E1].
    destruct (fwd_new_simple ea eb strip (plive im N) n (plive_calc im srt N HN) (plive_upd im srt N HN) (plive_prep im srt N HN) (plive_swap im srt N n HN) groups (new_parallel n pow2) s sw _ r V (new_plive im n pow2) E1) as (c1 & E2 & _ & Li).
    rewrite E in E2. injection E2 as <-. rewrite St in E1. destruct (new_any (next_tri im srt) (plain_fitness im) (tri_keep im srt) n groups (new_bare n) s s sw _ _ (new_rest delaunay n) L V V E1) as (R & B & _).
    constructor; [exact O1|exact Li|exact R|exact B|]. rewrite (new_muts _ _ _ _ _ _ E). exact L.
  - destruct IH as [O Li R B M].
    destruct (sim_simple_step ea eb strip (par_ok im) (par_calc_sim im srt) (par_upd_sim im srt) (par_prep_sim im srt) (par_base_sim im srt) (par_swap_sim im srt) cutoff mu s sw c c' r O E) as [O1 E1].
    destruct (back_step im srt pow2 n Hk cutoff mu s sw c _ r V Li E1) as (c1 & E2 & _ & L1). rewrite E in E2. injection E2 as <-.
    destruct (step_any (next_tri im srt) (plain_fitness im) (tri_keep im srt) n cutoff mu s s sw (F c) (F c') r R B V V E1) as (R1 & B1 & _).
    constructor; [exact O1|exact L1|exact R1|exact B1|]. rewrite (simple_muts _ _ _ _ _ _ E). exact M.
Qed.
(** When the workers are started. *)
Record started (lim : nat) (c : core par) : Prop := { sd_ok : par_ok im (c_ev c); sd_live : Live c; sd_calm : calm (strip (c_ev c)); sd_fit : fit_start lim (c_ev c); sd_pop : length (c_pop c) = n; sd_muts : length (c_muts c) = n }.
Lemma simple_started c : simple_start im srt cutoff n pow2 c -> started n c.
Proof.
  intros St. pose proof (start_ready _ _ _ _ _ _ St) as Rd. destruct St as [groups c1 L E|c0 mu c1 R E].
  - pose proof (init_ev _ _ _ E) as Ee. destruct (new_parallel_ok im n pow2) as [O Sp]. destruct (init_muts _ _ _ E) as [M B]. rewrite L in M, B. assert (C : calm (strip (c_ev c1))).
    { rewrite Ee, Sp. apply (rest_calm _ (new_rest delaunay n)). }
    constructor; [rewrite Ee; exact O|unfold alive; rewrite Ee; apply new_plive|exact C|apply (start_of n n); [lia|exact Rd|exact C]|apply B|exact M].
  - destruct (steps_between c0 R) as [O Li Re B M].
    destruct (sim_gen ea eb strip (par_ok im) (par_base_sim im srt) mu cutoff n c0 c1 O E) as [O1 E1].
    destruct (fwd_gen ea eb strip (plive im N) n (plive_base im srt N HN) mu cutoff n c0 (F c1) Li E1) as (c2 & E2 & _ & L1). rewrite E in E2. injection E2 as <-.
    pose proof (generation_fresh (next_tri im srt) (plain_fitness im) cutoff n mu (F c0) (F c1) Re E1) as Fr. destruct (fresh_calm _ _ _ Fr) as [C _].
    constructor; [exact O1|exact L1|exact C|apply (start_of n n); [lia|exact Rd|exact C]| |rewrite (gen_muts _ _ _ _ _ _ E); exact M].
    destruct B as [B1 B2]. apply gen_pops in E as [G1 G2]. congruence.
Qed.
End Simple.

Section Genetic.
Context (im : fimg) (srt : point -> list point -> option (list point)) (cutoff n l pow2 : nat).
Hypothesis (Hk : 1 <= pow2 <= 62) (Hsize : good_size (fi_w im) (fi_h im)) (Hsort : forall p q q', srt p q = Some q' -> Permutation q q') (Hl : (Z.of_nat l <= 65535)%Z) (Hc : cutoff <> 0) (H2c : 2 * cutoff <= n).
Notation ea := (parallel im srt). Notation eb := (bare_ev im srt). Notation N := (Z.of_nat (Nat.pow 2 pow2)). Notation F := (cmap strip). Notation HN := (pow_range pow2 Hk).
Lemma run_between g : genetic_run im srt cutoff n l pow2 g -> par_ok im (c_ev (g_core g)) /\ galive (plive im N) n g /\ L_Sched.ready cutoff n (gmap strip g).
Proof.
  induction 1 as [groups s sw g r Ln _ V E _ _|g mu s sw g' r _ (O & Li & R) _ V E _ _].
  - destruct (new_parallel_ok im n pow2) as [O St].
    destruct (sim_new_genetic ea eb strip (par_ok im) (par_calc_sim im srt) (par_upd_sim im srt) (par_prep_sim im srt) (par_swap_sim im srt) cutoff groups (new_parallel n pow2) s sw g r O E) as [O0 E0].
    destruct (fwd_new_genetic ea eb strip (plive im N) n (plive_calc im srt N HN) (plive_upd im srt N HN) (plive_prep im srt N HN) (plive_swap im srt N n HN) cutoff groups (new_parallel n pow2) s sw _ r V (new_plive im n pow2) E0) as (g1 & E1 & _ & Li).
    rewrite E in E1. injection E1 as <-. rewrite St in E0. pose proof (new_genetic_ready (next_tri im srt) (plain_fitness im) (tri_keep im srt) cutoff n groups (new_bare n) s sw _ _ Ln (new_rest delaunay n) V E0) as R. auto.
  - destruct (sim_genetic_step ea eb strip (par_ok im) (par_calc_sim im srt) (par_upd_sim im srt) (par_prep_sim im srt) (par_base_sim im srt) (par_swap_sim im srt) cutoff mu s sw g g' r O E) as [O1 E1].
    destruct (fwd_genetic_step ea eb strip (plive im N) n (plive_calc im srt N HN) (plive_upd im srt N HN) (plive_prep im srt N HN) (plive_base im srt N HN) (plive_swap im srt N n HN) cutoff mu s sw g _ r ltac:(lia) (proj1 (rd_both _ _ _ R)) V Li E1) as (g2 & E2 & _ & L1).
    rewrite E in E2. injection E2 as <-. split; [exact O1|]. split; [exact L1|]. exact (genetic_ready (next_tri im srt) (plain_fitness im) (tri_keep im srt) cutoff n mu s sw _ _ _ Hc H2c V R E1).
Qed.
Lemma genetic_started c : genetic_start im srt cutoff n l pow2 c -> started im n pow2 (n - cutoff) c.
Proof.
  intros St. assert (Rd : L_Race.ready n (n - cutoff) (c_ev c)).
  { destruct St as [groups c1 L E|g0 mu c1 R E].
    - rewrite (init_ev _ _ _ E). destruct (new_parallel_wf n pow2) as [W T]. split; [exact W|]. intros i Hi. left. apply T. lia.
    - destruct (run_ready im srt cutoff n l pow2 Hsize Hsort Hl Hc H2c g0 R) as [W T]. destruct (generation_same im srt n _ _ _ _ _ E) as [G _]. destruct (G W) as (W1 & C1 & _ & _ & T1).
      split; [exact W1|]. intros i Hi. rewrite C1, T1 by lia. apply T, Hi. }
  destruct St as [groups c1 L E|g0 mu c1 R E].
  - pose proof (init_ev _ _ _ E) as Ee. destruct (new_parallel_ok im n pow2) as [O Sp]. destruct (init_muts _ _ _ E) as [M B]. rewrite L in M, B. assert (C : calm (strip (c_ev c1))).
    { rewrite Ee, Sp. apply (rest_calm _ (new_rest delaunay n)). }
    constructor; [rewrite Ee; exact O|unfold alive; rewrite Ee; apply new_plive|exact C|apply (start_of n (n - cutoff)); [lia|exact Rd|exact C]|apply B|exact M].
  - destruct (run_between g0 R) as (O & Li & [Re B _ _]). cbn [gmap g_core] in Re, B.
    pose proof (genetic_run_inv im srt cutoff n l pow2 Hsize Hsort Hl Hc H2c g0 R) as [_ Hh _ _]. destruct (genetic_history_shape (bare_ev im srt) cutoff n l _ Hc Hh) as (Sh & _). pose proof (sh_muts _ _ _ Sh) as M. cbn [gmap g_core cmap c_muts] in M.
    destruct (sim_gen ea eb strip (par_ok im) (par_base_sim im srt) mu cutoff (n - cutoff) (g_core g0) c1 O E) as [O1 E1].
    destruct (fwd_gen ea eb strip (plive im N) n (plive_base im srt N HN) mu cutoff (n - cutoff) (g_core g0) (F c1) Li E1) as (c2 & E2 & _ & L1). rewrite E in E2. injection E2 as <-.
    pose proof (generation_fresh (next_tri im srt) (plain_fitness im) cutoff (n - cutoff) mu (F (g_core g0)) (F c1) Re E1) as Fr. destruct (fresh_calm _ _ _ Fr) as [C _].
    constructor; [exact O1|exact L1|exact C|apply (start_of n (n - cutoff)); [lia|exact Rd|exact C]| |rewrite (gen_muts _ _ _ _ _ _ E); exact M].
    destruct B as [B1 B2]. apply gen_pops in E as [G1 G2]. cbn [cmap c_pop c_newpop] in B1, B2. congruence.
Qed.
End Genetic.
