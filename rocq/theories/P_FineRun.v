(** C92: everything proved of the runs of simple and modifiedGenetic holds of the runs in which
    the workers are interleaved step by step. *)
From Coq Require Import ZArith List Bool Lia Arith Permutation Classical_Prop.
From Flocq Require Import IEEE754.BinarySingleNaN.
From Verif Require Import GoNum M_Norm M_Slice M_Geom S_Geom M_Image S_Image M_Raster S_Norm M_Delaunay S_Delaunay S_Remove M_Algo S_Algo M_Fitness S_Fitness S_Run S_Run2 S_MemRun S_Sched M_Fine S_Fine M_FineRun S_FineRun.
From Verif Require Import L_Slice L_Algo L_Algo2 L_Hold L_Fit L_Sim L_Fwd L_MemRun2 L_Sched L_Fine L_Fine2 L_Fine3 L_FineRun P_Delaunay P_Remove P_Algo P_AlgoEx P_AlgoEx2 P_Fitness P_Run P_Run2 P_Sched P_Fine.
Import ListNotations.
Local Open Scope nat_scope.

Section Simple.
Context (im : fimg) (srt : point -> list point -> option (list point)) (cutoff n l pow2 : nat).
Hypothesis Hk : 1 <= pow2 <= 62.
Notation ev := (parallel im srt).
Lemma program_steps c : simple_program im srt cutoff n l pow2 c -> simple_steps im srt cutoff n pow2 c.
Proof. induction 1 as [groups s sw c r [L _] V E _|c mu s sw c' r _ IH _ V E _]; [eapply ss_new; eauto|eapply ss_step; eauto]. Qed.
Lemma program_pop c : simple_program im srt cutoff n l pow2 c -> length (c_pop c) = n.
Proof. intros R. destruct (steps_between im srt cutoff n pow2 Hk c (program_steps c R)) as [_ _ _ B _]. apply B. Qed.
Lemma calc_coarse c st : simple_start im srt cutoff n pow2 c -> fine_calc im srt c st -> exists s, valid_schedule n s /\ simple_calc ev s c = Some (fs_core st, fs_res st).
Proof.
  intros S (Ln & t & R & F). pose proof (sd_pop _ _ _ _ _ (simple_started im srt cutoff n pow2 Hk c S)) as Lp. rewrite Lp in R. destruct (C89_simple im srt cutoff n pow2 c t st Hk S R F) as (s & V & E). exists s. split; [exact V|]. unfold simple_calc. destruct (Nat.eqb_spec (length (c_pop c)) 0); [contradiction|exact E].
Qed.
Lemma new_coarse groups sw c r : length groups = n -> fine_new_simple im srt groups (new_parallel n pow2) sw c r -> exists s, valid_schedule n s /\ new_simple ev groups (new_parallel n pow2) s sw = Some (c, r).
Proof.
  intros L [c1 st c' I Ca U]. destruct (calc_coarse c1 st (st_new _ _ _ _ _ groups c1 L I) Ca) as (s & V & E). exists s. split; [exact V|]. unfold new_simple. rewrite I, E, U. reflexivity.
Qed.
Lemma step_coarse c mu sw c' r : simple_program im srt cutoff n l pow2 c -> fine_simple_step im srt cutoff mu sw c c' r -> exists s, valid_schedule n s /\ simple_step ev cutoff mu s sw c = Some (c', r).
Proof.
  intros R [c1 st c2 G Ca U]. pose proof G as G'. rewrite (program_pop c R) in G'. destruct (calc_coarse c1 st (st_step _ _ _ _ _ c mu c1 (program_steps c R) G') Ca) as (s & V & E). exists s. split; [exact V|]. unfold simple_step. rewrite G, E, U. reflexivity.
Qed.
Lemma interleaved_program c : interleaved_simple im srt cutoff n l pow2 c -> simple_program im srt cutoff n l pow2 c.
Proof.
  induction 1 as [groups sw c r [L Gf] E So|c mu sw c' r _ IH Mu E So].
  - destruct (new_coarse groups sw c r L E) as (s & V & E'). exact (sp_new _ _ _ _ _ _ groups s sw c r (conj L Gf) V E' So).
  - destruct (step_coarse c mu sw c' r IH E) as (s & V & E'). exact (sp_step _ _ _ _ _ _ c mu s sw c' r IH Mu V E' So).
Qed.
End Simple.

Lemma some_schedule n : exists s, valid_schedule n s.
Proof. exists ([] ++ todo n []). apply complete; [split; [constructor|intros [|] ? ? H; discriminate]|intros a []]. Qed.
(** An execution that cannot panic and must end can be brought to its end. *)
Lemma can_finish im srt st0 : (forall t st, fine_run im srt st0 t st -> forall a, enabled st a -> fine_step im srt st a <> None) ->
  forall st, must_end im srt st -> forall t, fine_run im srt st0 t st -> exists t' st', fine_run im srt st0 t' st' /\ finished st'.
Proof.
  intros Sf st A. induction A as [st _ IH]. intros t R. destruct (classic (exists a, enabled st a)) as [(a & En)|N]; [|exists t, st; split; [exact R|intros a En; apply N; eauto]].
  destruct (fine_step im srt st a) as [st1|] eqn:E; [|destruct (Sf t st R a En E)]. apply (IH st1 (ex_intro _ a (conj En E)) (t ++ [a])). exact (fr_snoc im srt st0 t st a st1 R En E).
Qed.

Section SimpleTotal.
Context (im : idata) (bs : Z) (fi : fimg) (srt : point -> list point -> option (list point)) (cutoff n l pow2 : nat).
Hypothesis (Him : image_function im bs fi) (Hsrt : hull_sort srt) (Hl : (Z.of_nat l <= 32765)%Z) (Hcut : cutoff <> 0) (Hcn : cutoff <= n) (Hk : 1 <= pow2 <= 62) (Hn : 0 < n).
Notation ev := (parallel fi srt).
(** What must be shown of one call of calculateFitnesses, given that some schedule returns. *)
Lemma calc_total c s c1 r1 : simple_start fi srt cutoff n pow2 c -> valid_schedule n s -> simple_calc ev s c = Some (c1, r1) ->
  length (c_pop c) = n /\
  (forall t st, fine_run fi srt (fine_start n c) t st -> (forall a, enabled st a -> fine_step fi srt st a <> None) /\ must_end fi srt st) /\
  exists t st, fine_run fi srt (fine_start n c) t st /\ finished st.
Proof.
  intros S V E. pose proof (sd_pop _ _ _ _ _ (simple_started fi srt cutoff n pow2 Hk c S)) as Lp. unfold simple_calc in E. destruct (_ =? 0); [discriminate|]. split; [exact Lp|].
  assert (X : forall t st, fine_run fi srt (fine_start n c) t st -> (forall a, enabled st a -> fine_step fi srt st a <> None) /\ must_end fi srt st).
  { intros t st R. destruct (C89_simple_total fi srt cutoff n pow2 c s c1 r1 Hk S V E t st R) as (A & B & _). auto. }
  split; [exact X|]. apply (can_finish fi srt (fine_start n c) (fun t st R => proj1 (X t st R)) (fine_start n c) (proj2 (X [] _ (fr_nil _ _ _))) []). constructor.
Qed.
End SimpleTotal.

(** C92 for simple.  Every state the program reaches when the goroutines are interleaved step by
    step is one of the states of the runs of the theorems about simple (C58, C59, C60, C88). *)
Theorem C92_simple : forall im srt cutoff n l pow2 c, 1 <= pow2 <= 62 -> interleaved_simple im srt cutoff n l pow2 c -> simple_program im srt cutoff n l pow2 c.
Proof. intros im srt cutoff n l pow2 c Hk. exact (interleaved_program im srt cutoff n l pow2 Hk c). Qed.
Print Assumptions C92_simple.
(** NewSimple: no step of any interleaving panics, none goes on for ever, there is one that ends,
    and those that end can be sorted. *)
Theorem C92_new_simple_total : forall im bs fi srt cutoff n l pow2 groups, image_function im bs fi -> hull_sort srt -> (Z.of_nat l <= 32765)%Z -> cutoff <> 0 -> 1 <= pow2 <= 62 -> 0 < n -> point_groups n l groups ->
  exists c1, init_core groups (new_parallel n pow2) = Some c1 /\
  (forall t st, fine_run fi srt (fine_start n c1) t st -> (forall a, enabled st a -> fine_step fi srt st a <> None) /\ must_end fi srt st /\
     (finished st -> exists sw c, swaps_within n sw /\ fine_new_simple fi srt groups (new_parallel n pow2) sw c (fs_res st) /\ sorted (c_fits c) /\ interleaved_simple fi srt cutoff n l pow2 c)) /\
  exists t st, fine_run fi srt (fine_start n c1) t st /\ finished st.
Proof.
  intros im bs fi srt cutoff n l pow2 groups Him Hs Hl Hc Hk Hn G. destruct (some_schedule n) as (s & V).
  destruct (C60_new_simple im bs fi srt n l pow2 groups s [] Him Hs Hl Hk Hn G V ltac:(intros ? [])) as (c & r & E). unfold new_simple in E. destruct (init_core groups (new_parallel n pow2)) as [c1|] eqn:I; [|discriminate]. destruct (simple_calc _ s c1) as [[c2 r2]|] eqn:Ca; [|discriminate]. clear E.
  exists c1. split; [reflexivity|]. pose proof (st_new fi srt cutoff n pow2 groups c1 (proj1 G) I) as S. destruct (calc_total fi srt cutoff n pow2 Hk c1 s c2 r2 S V Ca) as (Lp & X & Y). split; [|exact Y].
  intros t st R. destruct (X t st R) as [A B]. split; [exact A|]. split; [exact B|]. intros F. destruct (C89_simple fi srt cutoff n pow2 c1 t st Hk S R F) as (s' & V' & E').
  destruct (new_sorts im bs fi srt cutoff n l pow2 Him Hs Hl Hc Hk groups s' Hn G V') as (sw & c' & r' & W & E2 & So). unfold new_simple in E2. rewrite I in E2. unfold simple_calc in E2. destruct (Nat.eqb_spec (length (c_pop c1)) 0) as [|Np]; [discriminate|]. rewrite E' in E2.
  destruct (update_fitnesses _ sw (fs_core st)) as [c3|] eqn:U; [|discriminate]. cbn [option_map] in E2. injection E2 as <- <-. assert (Z : fine_new_simple fi srt groups (new_parallel n pow2) sw c3 (fs_res st)).
  { apply (fns fi srt groups _ sw c1 st c3 I); [|exact U]. split; [exact Np|]. exists t. rewrite Lp. auto. }
  exists sw, c3. split; [exact W|]. split; [exact Z|]. split; [exact So|]. apply (is_new fi srt cutoff n l pow2 groups sw c3 _ G Z). intros _. exact So.
Qed.
Print Assumptions C92_new_simple_total.
(** The same of Step. *)
Theorem C92_simple_total : forall im bs fi srt cutoff n l pow2 c mu, image_function im bs fi -> hull_sort srt -> (Z.of_nat l <= 32765)%Z -> cutoff <> 0 -> cutoff <= n -> 1 <= pow2 <= 62 -> 0 < n ->
  interleaved_simple fi srt cutoff n l pow2 c -> mutator_ok mu ->
  exists c1, new_generation (parallel fi srt) mu cutoff n c = Some c1 /\
  (forall t st, fine_run fi srt (fine_start n c1) t st -> (forall a, enabled st a -> fine_step fi srt st a <> None) /\ must_end fi srt st /\
     (finished st -> exists sw c', swaps_within n sw /\ fine_simple_step fi srt cutoff mu sw c c' (fs_res st) /\ sorted (c_fits c') /\ interleaved_simple fi srt cutoff n l pow2 c')) /\
  exists t st, fine_run fi srt (fine_start n c1) t st /\ finished st.
Proof.
  intros im bs fi srt cutoff n l pow2 c mu Him Hs Hl Hc Hcn Hk Hn Is Mu. pose proof (C92_simple _ _ _ _ _ _ _ Hk Is) as P. pose proof (program_pop fi srt cutoff n l pow2 Hk c P) as Lc. destruct (some_schedule n) as (s & V).
  destruct (C60_simple_step im bs fi srt cutoff n l pow2 c mu s [] Him Hs Hl Hc Hcn Hk Hn P Mu V ltac:(intros ? [])) as (c' & r & E). unfold simple_step in E. rewrite Lc in E. destruct (new_generation _ mu cutoff n c) as [c1|] eqn:G; [|discriminate]. destruct (simple_calc _ s c1) as [[c2 r2]|] eqn:Ca; [|discriminate]. clear E.
  exists c1. split; [reflexivity|]. pose proof (st_step fi srt cutoff n pow2 c mu c1 (program_steps _ _ _ _ _ _ c P) G) as S. destruct (calc_total fi srt cutoff n pow2 Hk c1 s c2 r2 S V Ca) as (Lp & X & Y). split; [|exact Y].
  intros t st R. destruct (X t st R) as [A B]. split; [exact A|]. split; [exact B|]. intros F. destruct (C89_simple fi srt cutoff n pow2 c1 t st Hk S R F) as (s' & V' & E').
  destruct (step_sorts im bs fi srt cutoff n l pow2 Him Hs Hl Hc Hk c mu s' Hn Hcn P Mu V') as (sw & c3 & r3 & W & E2 & So). unfold simple_step in E2. rewrite Lc, G in E2. unfold simple_calc in E2. destruct (Nat.eqb_spec (length (c_pop c1)) 0) as [|Np]; [discriminate|]. rewrite E' in E2.
  destruct (update_fitnesses _ sw (fs_core st)) as [c4|] eqn:U; [|discriminate]. cbn [option_map] in E2. injection E2 as <- <-. assert (Z : fine_simple_step fi srt cutoff mu sw c (next_gen c4) (fs_res st)).
  { apply (fss fi srt cutoff mu sw c c1 st c4); [rewrite Lc; exact G| |exact U]. split; [exact Np|]. exists t. rewrite Lp. auto. }
  exists sw, (next_gen c4). split; [exact W|]. split; [exact Z|]. split; [exact So|]. apply (is_step fi srt cutoff n l pow2 c mu sw _ _ Is Mu Z). intros _. exact So.
Qed.
Print Assumptions C92_simple_total.
(** So Stats.BestFitness never decreases, however the workers are interleaved. *)
Theorem C92_simple_best : forall im bs fi srt cutoff n l pow2 c mu sw c' r, image_function im bs fi -> hull_sort srt -> (Z.of_nat l <= 32765)%Z -> cutoff <> 0 -> cutoff <= n -> 1 <= pow2 <= 62 -> 0 < n ->
  interleaved_simple fi srt cutoff n l pow2 c -> mutator_ok mu -> fine_simple_step fi srt cutoff mu sw c c' r -> sort_sorts (c_fits c') ->
  is_finite (stats_best c) = true /\ is_finite (stats_best c') = true /\ not_above (stats_best c) (stats_best c') /\ forall f, In f (c_fits c') -> not_above f (stats_best c').
Proof.
  intros im bs fi srt cutoff n l pow2 c mu sw c' r Him Hs Hl Hc Hcn Hk Hn Is Mu E So. pose proof (C92_simple _ _ _ _ _ _ _ Hk Is) as P. destruct (step_coarse fi srt cutoff n l pow2 Hk c mu sw c' r P E) as (s & V & E').
  exact (C60_simple_best im bs fi srt cutoff n l pow2 c mu s sw c' r Him Hs Hl Hc Hcn Hk Hn P Mu V E' So).
Qed.
Print Assumptions C92_simple_best.

Section Genetic.
Context (im : fimg) (srt : point -> list point -> option (list point)) (cutoff n l pow2 : nat).
Hypothesis (Hk : 1 <= pow2 <= 62) (Hsize : good_size (fi_w im) (fi_h im)) (Hsort : forall p q q', srt p q = Some q' -> Permutation q q') (Hl : (Z.of_nat l <= 65535)%Z) (Hc : cutoff <> 0) (H2c : 2 * cutoff <= n).
Notation ev := (parallel im srt).
Notation begun := (genetic_started im srt cutoff n l pow2 Hk Hsize Hsort Hl Hc H2c).
Lemma run_ready2 g : genetic_run im srt cutoff n l pow2 g -> length (c_pop (g_core g)) = n /\ length (c_fits (g_core g)) = n /\ length (g_ben g) = cutoff.
Proof. intros R. destruct (run_between im srt cutoff n l pow2 Hk Hc H2c g R) as (_ & _ & [_ [B _] F Be]). auto. Qed.
Lemma gcalc_coarse g st ben : genetic_start im srt cutoff n l pow2 (g_core g) -> gfine_calc im srt cutoff g st ben -> exists s, valid_schedule (n - cutoff) s /\ g_calc ev cutoff s g = Some (MGen (fs_core st) ben, fs_res st).
Proof.
  intros S (Ln & t & R & F). destruct (begun _ S) as [_ _ _ Fi Lp Lm]. rewrite Lp in R, Ln. destruct (gsim_run im srt (n - cutoff) (g_core g) Fi cutoff (g_ben g) t (st, ben) ltac:(lia) ltac:(lia) R) as (q & cc & G).
  destruct (gsim_ended im srt (n - cutoff) (g_core g) cutoff (g_ben g) q st ben cc G F) as [V E]. exists q. split; [exact V|]. unfold g_calc. destruct (Nat.leb_spec (length (c_pop (g_core g))) cutoff); [lia|]. destruct g. exact E.
Qed.
Lemma gnew_coarse groups sw g r : length groups = n -> fine_new_genetic im srt cutoff groups (new_parallel n pow2) sw g r -> exists s, valid_schedule (n - cutoff) s /\ new_genetic ev cutoff groups (new_parallel n pow2) s sw = Some (g, r).
Proof.
  intros L [c1 st ben c I Ca U]. destruct (gcalc_coarse (MGen c1 (repeat [] cutoff)) st ben (gst_new _ _ _ _ _ _ groups c1 L I) Ca) as (s & V & E). exists s. split; [exact V|]. unfold new_genetic. rewrite I, E. cbn [g_core g_ben]. rewrite U. reflexivity.
Qed.
Lemma gstep_coarse g mu sw g' r : genetic_run im srt cutoff n l pow2 g -> fine_genetic_step im srt cutoff mu sw g g' r -> exists s, valid_schedule (n - cutoff) s /\ genetic_step ev cutoff mu s sw g = Some (g', r).
Proof.
  intros R [c1 st ben g3 r' c G Ca Co U]. pose proof G as G'. rewrite (proj1 (run_ready2 g R)) in G'. destruct (gcalc_coarse (MGen c1 (map (fun _ => []) (g_ben g))) st ben (gst_step _ _ _ _ _ _ g mu c1 R G') Ca) as (s & V & E). exists s. split; [exact V|].
  unfold genetic_step. rewrite G, E, Co, U. reflexivity.
Qed.
Lemma interleaved_genetic_run g : interleaved_genetic im srt cutoff n l pow2 g -> genetic_run im srt cutoff n l pow2 g.
Proof.
  induction 1 as [groups sw g r [L Gf] E So Po|g mu sw g' r _ IH Mu E So Po].
  - destruct (gnew_coarse groups sw g r L E) as (s & V & E'). exact (gr_new _ _ _ _ _ _ groups s sw g r L Gf V E' So Po).
  - destruct (gstep_coarse g mu sw g' r IH E) as (s & V & E'). exact (gr_step _ _ _ _ _ _ g mu s sw g' r IH Mu V E' So Po).
Qed.

(** setBeneficial returns. *)
Lemma note_returns i (c : core par) ben : cutoff <= length (c_fits c) -> length ben = cutoff -> i < length (c_muts c) -> note_one cutoff i c ben <> None.
Proof.
  intros Lf Lb Lm. unfold note_one, set_beneficial, get_base. destruct (Nat.eqb_spec cutoff 0); [contradiction|]. pose proof (Nat.mod_upper_bound i cutoff Hc) as B. destruct (Nat.ltb_spec (i mod cutoff) (length (c_fits c))); [|lia]. destruct (flt _ _); [|discriminate].
  destruct (nth_error (c_muts c) i) as [ms|] eqn:E; [|apply nth_error_None in E; lia]. destruct (nth_error ben (i mod cutoff)) eqn:E2; [discriminate|apply nth_error_None in E2; lia].
Qed.
Lemma gcalc_total g s g1 r1 : genetic_start im srt cutoff n l pow2 (g_core g) -> length (c_fits (g_core g)) = n -> length (g_ben g) = cutoff -> valid_schedule (n - cutoff) s -> g_calc ev cutoff s g = Some (g1, r1) ->
  length (c_pop (g_core g)) = n /\
  (forall t x, gfine_run im srt cutoff (fine_start (n - cutoff) (g_core g), g_ben g) t x -> (forall a, enabled (fst x) a -> gfine_step im srt cutoff x a <> None) /\ must_end im srt (fst x)) /\
  exists t x, gfine_run im srt cutoff (fine_start (n - cutoff) (g_core g), g_ben g) t x /\ finished (fst x).
Proof.
  intros S Lf Lb V E. destruct (begun _ S) as [_ _ _ Fi Lp Lm]. split; [exact Lp|]. unfold g_calc in E. destruct (_ <=? _); [discriminate|]. destruct (gacts_core ev cutoff s g [] g1 r1 E) as [E1 _].
  assert (X : forall t x, gfine_run im srt cutoff (fine_start (n - cutoff) (g_core g), g_ben g) t x -> (forall a, enabled (fst x) a -> gfine_step im srt cutoff x a <> None) /\ must_end im srt (fst x)).
  { intros t [st ben] R. cbn [fst]. destruct (C89_genetic_total im srt cutoff n l pow2 (g_core g) s (g_core g1) r1 Hk Hsize Hsort Hl Hc H2c S V E1 t st (grun_run im srt (n - cutoff) (g_core g) cutoff (g_ben g) t (st, ben) R)) as (A & B & _). split; [|exact B].
    intros a En. specialize (A a En). unfold gfine_step. cbn [fst snd]. destruct (fine_step im srt st a) as [st'|] eqn:Es; [|destruct (A eq_refl)]. destruct a; try discriminate. destruct (fs_main st) as [[i [|d k]]|] eqn:M; try discriminate.
    destruct (gsim_run im srt (n - cutoff) (g_core g) Fi cutoff (g_ben g) t (st, ben) ltac:(lia) ltac:(lia) R) as (q & cc & G). pose proof (upd_gsim im srt (n - cutoff) (g_core g) Fi cutoff (g_ben g) q st ben cc st' G En Es) as U. rewrite M in U. destruct U as (cc' & J' & Ec & Ef).
    pose proof (proj2 G) as G2. cbn [fst snd] in G2. destruct (gacts_core ev cutoff q _ [] _ _ G2) as [_ Lb2]. cbn [g_ben] in Lb2.
    pose proof (j_main _ _ _ _ _ _ _ (proj1 G)) as Jm. cbn [fst] in Jm. rewrite M in Jm. destruct Jm as (Li & _).
    assert (Lf' : length (c_fits cc') = n). { pose proof (j_run _ _ _ _ _ _ _ J') as Jr. rewrite (gacts_fits _ _ _ _ _ _ Jr). exact Lf. }
    assert (Lm' : length (c_muts cc') = n) by (rewrite (j_c _ _ _ _ _ _ _ J'); exact Lm).
    assert (N : note_one cutoff i (fs_core st') ben <> None). { rewrite <- (note_same cutoff i cc' (fs_core st') ben Ef); [apply note_returns; lia|rewrite Ec; destruct cc'; reflexivity]. } destruct (note_one cutoff i (fs_core st') ben); [discriminate|destruct (N eq_refl)]. }
  split; [exact X|].
  assert (Y : forall st, must_end im srt st -> forall t ben, gfine_run im srt cutoff (fine_start (n - cutoff) (g_core g), g_ben g) t (st, ben) -> exists t' x, gfine_run im srt cutoff (fine_start (n - cutoff) (g_core g), g_ben g) t' x /\ finished (fst x)).
  { intros st A. induction A as [st _ IH]. intros t ben R. destruct (classic (exists a, enabled st a)) as [(a & En)|Ne]; [|exists t, (st, ben); split; [exact R|intros a En; apply Ne; eauto]].
    pose proof (proj1 (X _ _ R) a En) as Sf. destruct (gfine_step im srt cutoff (st, ben) a) as [[st1 ben1]|] eqn:Eg; [|destruct (Sf eq_refl)]. refine (IH st1 _ (t ++ [a]) ben1 (gfr_snoc im srt cutoff _ t (st, ben) a _ R En Eg)).
    exists a. split; [exact En|]. revert Eg. unfold gfine_step. cbn [fst snd]. destruct (fine_step im srt st a) as [st2|]; [|discriminate]. destruct a; try (intros [= <- _]; reflexivity). destruct (fs_main st) as [[i [|d k]]|]; try (intros [= <- _]; reflexivity). destruct (note_one _ _ _ _); [|discriminate]. intros [= <- _]. reflexivity. }
  apply (Y _ (proj2 (X [] _ (gfr_nil _ _ _ _))) [] (g_ben g)). constructor.
Qed.
End Genetic.

(** C92 for modifiedGenetic. *)
Theorem C92_genetic : forall im srt cutoff n l pow2 g, 1 <= pow2 <= 62 -> good_size (fi_w im) (fi_h im) -> (forall p q q', srt p q = Some q' -> Permutation q q') -> (Z.of_nat l <= 65535)%Z -> cutoff <> 0 -> 2 * cutoff <= n ->
  interleaved_genetic im srt cutoff n l pow2 g -> genetic_run im srt cutoff n l pow2 g.
Proof. intros im srt cutoff n l pow2 g Hk Hz Hs Hl Hc H2. exact (interleaved_genetic_run im srt cutoff n l pow2 Hk Hz Hs Hl Hc H2 g). Qed.
Print Assumptions C92_genetic.
Lemma function_size im bs fi : image_function im bs fi -> good_size (fi_w fi) (fi_h fi).
Proof. intros H. pose proof (im_usual im bs fi H) as U. unfold usual_size in U. unfold good_size. lia. Qed.
(** NewModifiedGenetic and Step: no step of any interleaving panics, none goes on for ever, there
    is one that ends; what follows when it ends returns as well, whatever the sort swaps. *)
Theorem C92_new_genetic_total : forall im bs fi srt cutoff n l pow2 groups, image_function im bs fi -> hull_sort srt -> (Z.of_nat l <= 32765)%Z -> cutoff <> 0 -> 2 * cutoff <= n -> 1 <= pow2 <= 62 -> point_groups n l groups ->
  exists c1, init_core groups (new_parallel n pow2) = Some c1 /\
  (forall t x, gfine_run fi srt cutoff (fine_start (n - cutoff) c1, repeat [] cutoff) t x -> (forall a, enabled (fst x) a -> gfine_step fi srt cutoff x a <> None) /\ must_end fi srt (fst x) /\
     (finished (fst x) -> forall sw, swaps_within n sw -> exists c, fine_new_genetic fi srt cutoff groups (new_parallel n pow2) sw (MGen c (snd x)) (fs_res (fst x)))) /\
  exists t x, gfine_run fi srt cutoff (fine_start (n - cutoff) c1, repeat [] cutoff) t x /\ finished (fst x).
Proof.
  intros im bs fi srt cutoff n l pow2 groups Him Hs Hl Hc H2 Hk G. pose proof (function_size _ _ _ Him) as Hz. assert (Hl' : (Z.of_nat l <= 65535)%Z) by lia. destruct (some_schedule (n - cutoff)) as (s & V).
  destruct (C60_new_genetic im bs fi srt cutoff n l pow2 groups s [] Him Hs Hl Hc H2 Hk G V ltac:(intros ? [])) as (g & r & E). unfold new_genetic in E. destruct (init_core groups (new_parallel n pow2)) as [c1|] eqn:I; [|discriminate]. destruct (g_calc _ cutoff s _) as [[g2 r2]|] eqn:Ca; [|discriminate]. clear E.
  exists c1. split; [reflexivity|]. pose proof (gst_new fi srt cutoff n l pow2 groups c1 (proj1 G) I) as S.
  assert (Lf : length (c_fits c1) = n). { unfold init_core in I. destruct groups as [|g0 gs]; [discriminate|]. injection I as <-. cbn [c_fits length]. rewrite ?repeat_length. apply G. }
  destruct (gcalc_total fi srt cutoff n l pow2 Hk Hz (proj1 Hs) Hl' Hc H2 (MGen c1 (repeat [] cutoff)) s g2 r2 S Lf (repeat_length _ _) V Ca) as (Lp & X & Y). cbn [g_core g_ben] in *. split; [|exact Y].
  intros t [st ben] R. destruct (X t (st, ben) R) as [A B]. split; [exact A|]. split; [exact B|]. cbn [fst snd]. intros F sw W. assert (Gc : gfine_calc fi srt cutoff (MGen c1 (repeat [] cutoff)) st ben).
  { split; cbn [g_core g_ben]; rewrite Lp; [lia|]. exists t. auto. }
  destruct (gcalc_coarse fi srt cutoff n l pow2 Hk Hz (proj1 Hs) Hl' Hc H2 (MGen c1 (repeat [] cutoff)) st ben S Gc) as (s' & V' & E').
  destruct (C60_new_genetic im bs fi srt cutoff n l pow2 groups s' sw Him Hs Hl Hc H2 Hk G V' W) as (g' & r' & E2). unfold new_genetic in E2. rewrite I, E' in E2. cbn [g_core g_ben] in E2. destruct (update_fitnesses _ sw (fs_core st)) as [c3|] eqn:U; [|discriminate].
  exists c3. exact (fng fi srt cutoff groups _ sw c1 st ben c3 I Gc U).
Qed.
Print Assumptions C92_new_genetic_total.
Theorem C92_genetic_total : forall im bs fi srt cutoff n l pow2 g mu, image_function im bs fi -> hull_sort srt -> (Z.of_nat l <= 32765)%Z -> cutoff <> 0 -> 2 * cutoff <= n -> 1 <= pow2 <= 62 ->
  interleaved_genetic fi srt cutoff n l pow2 g -> mutator_ok mu ->
  exists c1, new_generation (parallel fi srt) mu cutoff (n - cutoff) (g_core g) = Some c1 /\
  (forall t x, gfine_run fi srt cutoff (fine_start (n - cutoff) c1, map (fun _ => []) (g_ben g)) t x -> (forall a, enabled (fst x) a -> gfine_step fi srt cutoff x a <> None) /\ must_end fi srt (fst x) /\
     (finished (fst x) -> forall sw, swaps_within n sw -> exists g' r, fine_genetic_step fi srt cutoff mu sw g g' r)) /\
  exists t x, gfine_run fi srt cutoff (fine_start (n - cutoff) c1, map (fun _ => []) (g_ben g)) t x /\ finished (fst x).
Proof.
  intros im bs fi srt cutoff n l pow2 g mu Him Hs Hl Hc H2 Hk Ig Mu. pose proof (function_size _ _ _ Him) as Hz. assert (Hl' : (Z.of_nat l <= 65535)%Z) by lia. pose proof (C92_genetic _ _ _ _ _ _ _ Hk Hz (proj1 Hs) Hl' Hc H2 Ig) as P. destruct (run_ready2 fi srt cutoff n l pow2 Hk Hc H2 g P) as (Lc & Lf & Lb).
  destruct (some_schedule (n - cutoff)) as (s & V).
  destruct (C60_genetic_step im bs fi srt cutoff n l pow2 g mu s [] Him Hs Hl Hc H2 Hk P Mu V ltac:(intros ? [])) as (g' & r & E). unfold genetic_step in E. rewrite Lc in E. destruct (new_generation _ mu cutoff _ (g_core g)) as [c1|] eqn:G; [|discriminate]. destruct (g_calc _ cutoff s _) as [[g2 r2]|] eqn:Ca; [|discriminate]. clear E.
  exists c1. split; [reflexivity|]. pose proof (gst_step fi srt cutoff n l pow2 g mu c1 P G) as S. pose proof (generation_nfits _ _ _ _ _ _ G) as Gf. assert (Lf1 : length (c_fits c1) = n) by congruence. assert (Lb1 : length (map (fun _ : bmuts => @nil (mut * nat)) (g_ben g)) = cutoff) by (rewrite map_length; exact Lb).
  destruct (gcalc_total fi srt cutoff n l pow2 Hk Hz (proj1 Hs) Hl' Hc H2 (MGen c1 (map (fun _ => []) (g_ben g))) s g2 r2 S Lf1 Lb1 V Ca) as (Lp & X & Y). cbn [g_core g_ben] in *. split; [|exact Y].
  intros t [st ben] R. destruct (X t (st, ben) R) as [A B]. split; [exact A|]. split; [exact B|]. cbn [fst snd]. intros F sw W. assert (Gc : gfine_calc fi srt cutoff (MGen c1 (map (fun _ => []) (g_ben g))) st ben).
  { split; cbn [g_core g_ben]; rewrite Lp; [lia|]. exists t. auto. }
  destruct (gcalc_coarse fi srt cutoff n l pow2 Hk Hz (proj1 Hs) Hl' Hc H2 (MGen c1 (map (fun _ => []) (g_ben g))) st ben S Gc) as (s' & V' & E').
  destruct (C60_genetic_step im bs fi srt cutoff n l pow2 g mu s' sw Him Hs Hl Hc H2 Hk P Mu V' W) as (g3 & r3 & E2). unfold genetic_step in E2. rewrite Lc, G, E' in E2. destruct (combine_muts _ cutoff cutoff (n - cutoff) _) as [[g4 r4]|] eqn:Co; [|discriminate]. destruct (update_fitnesses _ sw (g_core g4)) as [c5|] eqn:U; [|discriminate].
  exists (MGen (next_gen c5) (g_ben g4)), r4. apply (fgs fi srt cutoff mu sw g c1 st ben g4 r4 c5); [rewrite Lc; exact G|exact Gc|rewrite Lc; exact Co|exact U].
Qed.
Print Assumptions C92_genetic_total.

(** * Cases: on the image of C60, three states of simple, each reached by interleaved workers. *)
Example C92_case : exists d fi c0 c1 c2, to_data waves = Some d /\ image_function (as_idata d) 2 fi /\
  interleaved_simple fi insertion_sort 1 2 5 3 c0 /\ interleaved_simple fi insertion_sort 1 2 5 3 c1 /\ interleaved_simple fi insertion_sort 1 2 5 3 c2 /\
  (exists sw r, fine_simple_step fi insertion_sort 1 nudge sw c0 c1 r) /\ (exists sw r, fine_simple_step fi insertion_sort 1 nudge sw c1 c2 r).
Proof.
  destruct waves_function as (d & fi & E & Him). pose proof insertion_hull_sort as Hs. assert (Hl : (Z.of_nat 5 <= 32765)%Z) by lia. assert (Hk : 1 <= 3 <= 62) by lia.
  assert (St : forall c, interleaved_simple fi insertion_sort 1 2 5 3 c -> exists c' sw r, interleaved_simple fi insertion_sort 1 2 5 3 c' /\ fine_simple_step fi insertion_sort 1 nudge sw c c' r).
  { intros c R. destruct (C92_simple_total (as_idata d) 2 fi insertion_sort 1 2 5 3 c nudge Him Hs Hl ltac:(lia) ltac:(lia) Hk ltac:(lia) R nudge_ok) as (c1 & _ & X & t & st & Rn & F). destruct (X t st Rn) as (_ & _ & Y). destruct (Y F) as (sw & c' & _ & A & _ & B). eauto. }
  destruct (C92_new_simple_total (as_idata d) 2 fi insertion_sort 1 2 5 3 (repeat pts0 2) Him Hs Hl ltac:(lia) Hk ltac:(lia) two_groups) as (cs & _ & X & t & st & Rn & F). destruct (X t st Rn) as (_ & _ & Y). destruct (Y F) as (sw & c0 & _ & _ & _ & R0).
  destruct (St c0 R0) as (c1 & sw1 & r1 & R1 & E1). destruct (St c1 R1) as (c2 & sw2 & r2 & R2 & E2). exists d, fi, c0, c1, c2. split; [exact E|]. split; [exact Him|]. split; [exact R0|]. split; [exact R1|]. split; [exact R2|]. split; eauto.
Qed.
(** modifiedGenetic with three members, the two workers taking turns. *)
Fixpoint ggo (im : fimg) (srt : point -> list point -> option (list point)) (cutoff : nat) (l : list fact) (x : (fstate * list bmuts) * list fact) : option ((fstate * list bmuts) * list fact) :=
  match l with
  | [] => Some x
  | a :: l' => if enabledb (fst (fst x)) a then match gfine_step im srt cutoff (fst x) a with None => None | Some y => ggo im srt cutoff l' (y, snd x ++ [a]) end else ggo im srt cutoff l' x
  end.
Lemma ggo_run im srt cutoff x0 l : forall x t x' t', gfine_run im srt cutoff x0 t x -> ggo im srt cutoff l (x, t) = Some (x', t') -> gfine_run im srt cutoff x0 t' x'.
Proof.
  induction l as [|a l IH]; intros x t x' t' R; cbn [ggo fst snd]; [intros [= <- <-]; exact R|]. destruct (enabledb (fst x) a) eqn:En; [|apply IH, R]. destruct (gfine_step im srt cutoff x a) as [x1|] eqn:E; [|discriminate].
  apply IH. apply (gfr_snoc im srt cutoff x0 t x a x1 R); [apply enabledb_ok, En|exact E].
Qed.
Definition gcase_new (groups : list (list npoint)) (tr : list fact) (fi : fimg) : option (core par * (fstate * list bmuts) * list fact * core par) :=
  match init_core groups (new_parallel 3 3) with None => None | Some c1 =>
  match ggo fi insertion_sort 1 tr ((fine_start 2 c1, repeat [] 1), []) with None => None | Some (x, t) =>
  match update_fitnesses (parallel fi insertion_sort) [] (fs_core (fst x)) with None => None | Some c => Some (c1, x, t, c) end end end.
Definition gcase_step (mu : mutator) (tr : list fact) (fi : fimg) (sw : list (nat * nat)) (g : mgen par) : option (core par * (fstate * list bmuts) * list fact * (mgen par * results) * core par) :=
  match new_generation (parallel fi insertion_sort) mu 1 2 (g_core g) with None => None | Some c1 =>
  match ggo fi insertion_sort 1 tr ((fine_start 2 c1, map (fun _ => []) (g_ben g)), []) with None => None | Some (x, t) =>
  match combine_muts (parallel fi insertion_sort) 1 1 2 (MGen (fs_core (fst x)) (snd x), fs_res (fst x)) with None => None | Some (g3, r) =>
  match update_fitnesses (parallel fi insertion_sort) sw (g_core g3) with None => None | Some c => Some (c1, x, t, (g3, r), c) end end end end.
Definition gcase_check (groups : list (list npoint)) (mu : mutator) (tr : list fact) (gf : option fimg) : bool :=
  match gf with None => false | Some fi =>
  (fi_w fi =? 6)%Z && (fi_h fi =? 6)%Z &&
  match gcase_new groups tr fi with None => false | Some (c0, x, t, c) =>
  (length (c_pop c0) =? 3) && quietb (fst x) && (10 <? length t) && sortedb (c_fits c) && all_pos (fs_res (fst x)) && (length (c_pop c) =? 3) &&
  match gcase_step mu tr fi [(0, 2)] (MGen c (snd x)) with None => false | Some (c1, x2, t2, (g3, r), c2) =>
  quietb (fst x2) && (20 <? length t2) && sortedb (c_fits c2) && all_pos r && (length (c_pop c1) =? 3) &&
  match g_ben g3 with [[_]] => true | _ => false end && flt (nth 0 (c_fits c) f0) (nth 0 (c_fits c2) f0) end end end.
Lemma gcase_checked : gcase_check (repeat pts0 3) nudge turns grad_fi = true.
Proof. vm_compute. reflexivity. Qed.
Lemma gcase_ok groups mu tr gf : point_groups 3 5 groups -> mutator_ok mu -> gcase_check groups mu tr gf = true -> exists fi g0 g1 sw r m, gf = Some fi /\ good_size (fi_w fi) (fi_h fi) /\ interleaved_genetic fi insertion_sort 1 3 5 3 g0 /\
  fine_genetic_step fi insertion_sort 1 mu sw g0 g1 r /\ interleaved_genetic fi insertion_sort 1 3 5 3 g1 /\ g_ben g1 = [[m]] /\ flt (nth 0 (c_fits (g_core g0)) f0) (nth 0 (c_fits (g_core g1)) f0) = true.
Proof.
  intros Gr Mu. unfold gcase_check. destruct gf as [fi|]; [|discriminate]. destruct (gcase_new groups tr fi) as [[[[c1 x] t] c]|] eqn:E0; [|rewrite andb_false_r; discriminate]. destruct (gcase_step _ _ _) as [[[[[c1' x2] t2] [g3 r]] c2]|] eqn:E1; [|rewrite !andb_false_r; discriminate].
  rewrite !andb_true_iff. intros [[W H] [[[[[[Lp Q0] T0] S0] P0] L0] [[[[[[Q1 T1] S1] P1] L1] B1] F1]]]. apply Z.eqb_eq in W, H. apply Nat.eqb_eq in L0, L1, Lp.
  unfold gcase_new in E0. destruct (init_core _ _) as [d1|] eqn:I0; [|discriminate]. destruct (ggo _ _ _ _ _) as [[y0 u0]|] eqn:R0; [|discriminate]. destruct (update_fitnesses _ _ _) as [e0|] eqn:U0; [|discriminate]. injection E0 as -> -> -> ->.
  unfold gcase_step in E1. destruct (new_generation _ _ _ _ _) as [d2|] eqn:I1; [|discriminate]. match type of E1 with context [ggo ?a ?b ?c ?d ?e] => destruct (ggo a b c d e) as [[y1 u1]|] eqn:R1' end; [|discriminate]. destruct (combine_muts _ _ _ _ _) as [[h3 k]|] eqn:C1'; [|discriminate]. destruct (update_fitnesses _ [(0, 2)] _) as [e1|] eqn:U1; [|discriminate]. injection E1 as -> -> -> -> -> ->.
  destruct x as [st ben], x2 as [st2 ben2]. cbn [fst snd g_core g_ben] in *.
  assert (Z0 : fine_new_genetic fi insertion_sort 1 groups (new_parallel 3 3) [] (MGen c ben) (fs_res st)).
  { apply (fng _ _ _ _ _ _ c1 st ben c I0); [|exact U0]. split; cbn [g_core g_ben]; rewrite Lp; [lia|]. exists t. split; [|apply quiet_ok, Q0]. apply (ggo_run fi insertion_sort 1 _ tr (fine_start 2 c1, repeat [] 1) [] (st, ben) t); [constructor|exact R0]. }
  assert (A0 : interleaved_genetic fi insertion_sort 1 3 5 3 (MGen c ben)).
  { apply (ig_new _ _ _ _ _ _ groups [] _ (fs_res st)); [exact Gr|exact Z0|apply sortedb_ok, S0|apply all_pos_ok, P0]. }
  assert (Z1 : fine_genetic_step fi insertion_sort 1 mu [(0, 2)] (MGen c ben) (MGen (next_gen c2) (g_ben g3)) r).
  { apply (fgs _ _ _ _ _ (MGen c ben) c1' st2 ben2 g3 r c2); cbn [g_core g_ben]; rewrite ?L0; [exact I1| |exact C1'|exact U1]. split; cbn [g_core g_ben]; rewrite L1; [lia|]. exists t2. split; [|apply quiet_ok, Q1]. apply (ggo_run fi insertion_sort 1 _ tr (fine_start 2 c1', map (fun _ => []) ben) [] (st2, ben2) t2); [constructor|exact R1']. }
  destruct (g_ben g3) as [|[|m []] []] eqn:Bn; try discriminate. rewrite <- Bn in Z1. exists fi, (MGen c ben), (MGen (next_gen c2) (g_ben g3)), [(0, 2)], r, m. split; [reflexivity|]. split; [rewrite W, H; unfold good_size; lia|]. split; [exact A0|]. split; [exact Z1|]. split; [|split; [exact Bn|exact F1]].
  apply (ig_step _ _ _ _ _ _ (MGen c ben) mu [(0, 2)] _ r A0 Mu Z1); [apply sortedb_ok, S1|apply all_pos_ok, P1].
Qed.
(** The second generation notes a mutation of the best member and combines it with others. *)
Example C92_genetic_case : exists fi g0 g1 sw r m, grad_fi = Some fi /\ good_size (fi_w fi) (fi_h fi) /\ interleaved_genetic fi insertion_sort 1 3 5 3 g0 /\
  fine_genetic_step fi insertion_sort 1 nudge sw g0 g1 r /\ interleaved_genetic fi insertion_sort 1 3 5 3 g1 /\ g_ben g1 = [[m]] /\ flt (nth 0 (c_fits (g_core g0)) f0) (nth 0 (c_fits (g_core g1)) f0) = true.
Proof.
  apply (gcase_ok (repeat pts0 3) nudge turns grad_fi); [|exact nudge_ok|exact gcase_checked]. split; [reflexivity|]. apply (pts_ok pts0). vm_compute. reflexivity.
Qed.
