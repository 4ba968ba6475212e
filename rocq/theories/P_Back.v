(** C94: the states reached with interleaved workers are exactly those of the runs with single
    events. *)
From Coq Require Import ZArith List Bool Lia Arith Permutation.
From Flocq Require Import IEEE754.BinarySingleNaN.
From Verif Require Import GoNum M_Norm M_Slice M_Geom S_Geom M_Image S_Image M_Raster S_Norm M_Delaunay S_Delaunay S_Remove M_Algo S_Algo M_Fitness S_Fitness S_Run S_Run2 S_MemRun S_Sched M_Fine S_Fine M_FineRun S_FineRun.
From Verif Require Import L_Slice L_Algo L_Algo2 L_Hold L_Fit L_Sim L_Fwd L_MemRun2 L_Sched L_Fine L_Fine2 L_Fine3 L_FineRun L_Back L_Reach P_Delaunay P_Remove P_Algo P_AlgoEx P_AlgoEx2 P_Fitness P_Run P_Run2 P_Sched P_Fine P_FineRun.
Import ListNotations.
Local Open Scope nat_scope.

(** A schedule that returns has stored a fitness. *)
Lemma some_fits {E0} (ev : evaluator E0) s : forall c r c' r', do_acts ev s (c, r) = Some (c', r') -> forall i, In (Recv i) s -> length (c_fits c) <> 0.
Proof.
  induction s as [|a s IH]; intros c r c' r' E i; [intros []|]. cbn [do_acts] in E. destruct (do_act ev (c, r) a) as [[c1 r1]|] eqn:Ea; [|discriminate]. intros [->|I].
  - intros Z0. unfold do_act in Ea. destruct (result r i); [|discriminate]. unfold put in Ea. rewrite Z0 in Ea. discriminate.
  - pose proof (IH _ _ _ _ E i I) as N. assert (X : do_acts ev [a] (c, r) = Some (c1, r1)) by (cbn [do_acts]; rewrite Ea; reflexivity). rewrite <- (gacts_fits ev _ _ _ _ _ X). exact N.
Qed.

Section Simple.
Context (im : fimg) (srt : point -> list point -> option (list point)) (cutoff n l pow2 : nat).
Hypothesis Hk : 1 <= pow2 <= 62.
Notation ev := (parallel im srt).
Lemma calc_fine c s c1 r1 : simple_start im srt cutoff n pow2 c -> valid_schedule n s -> simple_calc ev s c = Some (c1, r1) -> exists st, fine_calc im srt c st /\ fs_core st = c1 /\ fs_res st = r1.
Proof.
  intros S V E. destruct (simple_started im srt cutoff n pow2 Hk c S) as [_ _ _ Fi Lp Lm]. unfold simple_calc in E. destruct (Nat.eqb_spec (length (c_pop c)) 0) as [|Np]; [discriminate|].
  assert (Lf : 1 <= length (c_fits c)). { destruct (valid_ordered n s V) as [_ Rc]. pose proof (some_fits ev s c [] c1 r1 E 0 (proj2 (Rc 0) ltac:(lia))). lia. }
  destruct (schedule_run im srt n c 1 [[]] Fi ltac:(lia) ltac:(lia) ltac:(discriminate) Lf eq_refl) with (s := s) as (t & st & ben & R & F & G); [|exact V|].
  - intros t st a R En. exact (proj1 (C89_simple_total im srt cutoff n pow2 c s c1 r1 Hk S V E t st R) a En).
  - destruct (gacts_core ev 1 s _ _ _ _ G) as [X _]. cbn [g_core] in X. pose proof (eq_trans (eq_sym E) X) as Y. injection Y as Y1 Y2. exists st. split; [|split; symmetry; assumption]. split; [exact Np|]. exists t. rewrite Lp. split; [|exact F]. exact (grun_run im srt n c 1 [[]] t (st, ben) R).
Qed.
Lemma program_interleaved c : simple_program im srt cutoff n l pow2 c -> interleaved_simple im srt cutoff n l pow2 c.
Proof.
  induction 1 as [groups s sw c r [L Gf] V E So|c mu s sw c' r P IH Mu V E So].
  - apply (is_new _ _ _ _ _ _ groups sw c r (conj L Gf)); [|exact So]. unfold new_simple in E. destruct (init_core groups (new_parallel n pow2)) as [c1|] eqn:I; [|discriminate]. destruct (simple_calc ev s c1) as [[c2 r2]|] eqn:Ca; [|discriminate]. destruct (update_fitnesses ev sw c2) as [c3|] eqn:U; [|discriminate]. injection E as <- <-.
    destruct (calc_fine c1 s c2 r2 (st_new _ _ _ _ _ groups c1 L I) V Ca) as (st & Fc & <- & <-). exact (fns im srt groups _ sw c1 st c3 I Fc U).
  - apply (is_step _ _ _ _ _ _ c mu sw c' r IH Mu); [|exact So]. unfold simple_step in E. destruct (new_generation ev mu cutoff (length (c_pop c)) c) as [c1|] eqn:G; [|discriminate]. destruct (simple_calc ev s c1) as [[c2 r2]|] eqn:Ca; [|discriminate]. destruct (update_fitnesses ev sw c2) as [c3|] eqn:U; [|discriminate]. injection E as <- <-.
    pose proof G as G'. rewrite (program_pop im srt cutoff n l pow2 Hk c P) in G'. destruct (calc_fine c1 s c2 r2 (st_step _ _ _ _ _ c mu c1 (program_steps im srt cutoff n l pow2 c P) G') V Ca) as (st & Fc & <- & <-). exact (fss im srt cutoff mu sw c c1 st c3 G Fc U).
Qed.
End Simple.
(** C94: every execution of calculateFitnesses with single events that returns is that of an
    interleaving of the steps. *)
Theorem C94_simple_calc : forall im srt cutoff n pow2 c s c1 r1, 1 <= pow2 <= 62 -> simple_start im srt cutoff n pow2 c -> valid_schedule n s -> simple_calc (parallel im srt) s c = Some (c1, r1) ->
  exists st, fine_calc im srt c st /\ fs_core st = c1 /\ fs_res st = r1.
Proof. intros im srt cutoff n pow2 c s c1 r1 Hk. exact (calc_fine im srt cutoff n pow2 Hk c s c1 r1). Qed.
Print Assumptions C94_simple_calc.
(** The runs are the same. *)
Theorem C94_simple : forall im srt cutoff n l pow2 c, 1 <= pow2 <= 62 -> simple_program im srt cutoff n l pow2 c <-> interleaved_simple im srt cutoff n l pow2 c.
Proof. intros im srt cutoff n l pow2 c Hk. split; [exact (program_interleaved im srt cutoff n l pow2 Hk c)|exact (C92_simple im srt cutoff n l pow2 c Hk)]. Qed.
Print Assumptions C94_simple.

Section Genetic.
Context (im : fimg) (srt : point -> list point -> option (list point)) (cutoff n l pow2 : nat).
Hypothesis (Hk : 1 <= pow2 <= 62) (Hsize : good_size (fi_w im) (fi_h im)) (Hsort : forall p q q', srt p q = Some q' -> Permutation q q') (Hl : (Z.of_nat l <= 65535)%Z) (Hc : cutoff <> 0) (H2c : 2 * cutoff <= n).
Notation ev := (parallel im srt).
Lemma gcalc_fine g s g1 r1 : genetic_start im srt cutoff n l pow2 (g_core g) -> length (c_fits (g_core g)) = n -> length (g_ben g) = cutoff -> valid_schedule (n - cutoff) s -> g_calc ev cutoff s g = Some (g1, r1) ->
  exists st, gfine_calc im srt cutoff g st (g_ben g1) /\ fs_core st = g_core g1 /\ fs_res st = r1.
Proof.
  intros S Lf Lb V E. destruct (genetic_started im srt cutoff n l pow2 Hk Hsize Hsort Hl Hc H2c _ S) as [_ _ _ Fi Lp Lm]. unfold g_calc in E. destruct (Nat.leb_spec (length (c_pop (g_core g))) cutoff) as [|Np]; [discriminate|]. destruct (gacts_core ev cutoff s g [] g1 r1 E) as [E1 _].
  destruct (schedule_run im srt (n - cutoff) (g_core g) cutoff (g_ben g) Fi ltac:(lia) ltac:(lia) Hc ltac:(lia) Lb) with (s := s) as (t & st & ben & R & F & G); [|exact V|].
  - intros t st a R En. exact (proj1 (C89_genetic_total im srt cutoff n l pow2 (g_core g) s (g_core g1) r1 Hk Hsize Hsort Hl Hc H2c S V E1 t st R) a En).
  - assert (Y : Some (g1, r1) = Some (MGen (fs_core st) ben, fs_res st)) by (rewrite <- G, <- E; destruct g; reflexivity). injection Y as -> ->. exists st. split; [|split; reflexivity]. split; [exact Np|]. exists t. rewrite Lp. cbn [g_ben]. auto.
Qed.
Lemma gstart_fits c : genetic_start im srt cutoff n l pow2 c -> length (c_fits c) = n.
Proof.
  intros [groups c1 L I|g0 mu c1 R G].
  - rewrite <- L. destruct groups; [discriminate|]. injection I as <-. cbn [c_fits length]. rewrite repeat_length. reflexivity.
  - rewrite (generation_nfits _ _ _ _ _ _ G). exact (proj1 (proj2 (run_ready2 im srt cutoff n l pow2 Hk Hc H2c g0 R))).
Qed.
Lemma gstep_fine g mu s sw g' r : genetic_run im srt cutoff n l pow2 g -> valid_schedule (n - cutoff) s -> genetic_step ev cutoff mu s sw g = Some (g', r) -> fine_genetic_step im srt cutoff mu sw g g' r.
Proof.
  intros P V E. unfold genetic_step in E. destruct (run_ready2 im srt cutoff n l pow2 Hk Hc H2c g P) as (Lp & Lf & Lb). destruct (new_generation ev mu cutoff (length (c_pop (g_core g)) - cutoff) (g_core g)) as [c1|] eqn:G; [|discriminate].
  destruct (g_calc ev cutoff s (MGen c1 (map (fun _ => []) (g_ben g)))) as [[g2 r2]|] eqn:Ca; [|discriminate]. destruct (combine_muts ev cutoff cutoff (length (c_pop (g_core g)) - cutoff) (g2, r2)) as [[g3 r3]|] eqn:Co; [|discriminate]. destruct (update_fitnesses ev sw (g_core g3)) as [c3|] eqn:U; [|discriminate]. injection E as <- <-.
  pose proof G as G'. rewrite Lp in G'. pose proof (gst_step im srt cutoff n l pow2 g mu c1 P G') as S. destruct (gcalc_fine (MGen c1 (map (fun _ => []) (g_ben g))) s g2 r2 S (gstart_fits c1 S) ltac:(cbn [g_ben]; rewrite map_length; exact Lb) V Ca) as (st & Fc & Ec & Er).
  apply (fgs im srt cutoff mu sw g c1 st (g_ben g2) g3 r3 c3 G Fc); [|exact U]. rewrite Ec, Er. destruct g2. exact Co.
Qed.
Lemma run_interleaved g : genetic_run im srt cutoff n l pow2 g -> interleaved_genetic im srt cutoff n l pow2 g.
Proof.
  induction 1 as [groups s sw g r L Gf V E So Po|g mu s sw g' r P IH Mu V E So Po].
  - apply (ig_new _ _ _ _ _ _ groups sw g r (conj L Gf)); [|exact So|exact Po]. unfold new_genetic in E. destruct (init_core groups (new_parallel n pow2)) as [c1|] eqn:I; [|discriminate]. destruct (g_calc ev cutoff s (MGen c1 (repeat [] cutoff))) as [[g2 r2]|] eqn:Ca; [|discriminate]. destruct (update_fitnesses ev sw (g_core g2)) as [c3|] eqn:U; [|discriminate]. injection E as <- <-.
    pose proof (gst_new im srt cutoff n l pow2 groups c1 L I) as S. destruct (gcalc_fine (MGen c1 (repeat [] cutoff)) s g2 r2 S (gstart_fits c1 S) (repeat_length _ _) V Ca) as (st & Fc & Ec & <-). apply (fng im srt cutoff groups _ sw c1 st (g_ben g2) c3 I Fc). rewrite Ec. exact U.
  - exact (ig_step _ _ _ _ _ _ g mu sw g' r IH Mu (gstep_fine g mu s sw g' r P V E) So Po).
Qed.
End Genetic.
Theorem C94_genetic_calc : forall im srt cutoff n l pow2 g s g1 r1, 1 <= pow2 <= 62 -> good_size (fi_w im) (fi_h im) -> (forall p q q', srt p q = Some q' -> Permutation q q') -> (Z.of_nat l <= 65535)%Z -> cutoff <> 0 -> 2 * cutoff <= n ->
  genetic_start im srt cutoff n l pow2 (g_core g) -> length (g_ben g) = cutoff -> valid_schedule (n - cutoff) s -> g_calc (parallel im srt) cutoff s g = Some (g1, r1) ->
  exists st, gfine_calc im srt cutoff g st (g_ben g1) /\ fs_core st = g_core g1 /\ fs_res st = r1.
Proof. intros im srt cutoff n l pow2 g s g1 r1 Hk Hz Hs Hl Hc H2 S. exact (gcalc_fine im srt cutoff n l pow2 Hk Hz Hs Hl Hc H2 g s g1 r1 S (gstart_fits im srt cutoff n l pow2 Hk Hc H2 _ S)). Qed.
Print Assumptions C94_genetic_calc.
Theorem C94_genetic : forall im srt cutoff n l pow2 g, 1 <= pow2 <= 62 -> good_size (fi_w im) (fi_h im) -> (forall p q q', srt p q = Some q' -> Permutation q q') -> (Z.of_nat l <= 65535)%Z -> cutoff <> 0 -> 2 * cutoff <= n ->
  genetic_run im srt cutoff n l pow2 g <-> interleaved_genetic im srt cutoff n l pow2 g.
Proof. intros im srt cutoff n l pow2 g Hk Hz Hs Hl Hc H2. split; [exact (run_interleaved im srt cutoff n l pow2 Hk Hz Hs Hl Hc H2 g)|exact (C92_genetic im srt cutoff n l pow2 g Hk Hz Hs Hl Hc H2)]. Qed.
Print Assumptions C94_genetic.

(** So the interleaving decides what modifiedGenetic returns: C88_genetic_refuted, with the steps
    of the workers.  From the same state, with the same mutations and the same swaps of the sort,
    Step ends with different best members. *)
Theorem C94_interleaving_decides_refuted : exists fi mu sw g0 g1 r1 g2 r2 p1 p2, interleaved_genetic fi insertion_sort 1 4 3 3 g0 /\ mutator_ok mu /\
  fine_genetic_step fi insertion_sort 1 mu sw g0 g1 r1 /\ fine_genetic_step fi insertion_sort 1 mu sw g0 g2 r2 /\ interleaved_genetic fi insertion_sort 1 4 3 3 g1 /\ interleaved_genetic fi insertion_sort 1 4 3 3 g2 /\
  nth_error (buf (g_core g1) (best_slice (g_core g1))) 1 = Some p1 /\ nth_error (buf (g_core g2) (best_slice (g_core g2))) 1 = Some p2 /\ flt (ny p1) (ny p2) = true.
Proof.
  destruct C88_genetic_refuted as (fi & mu & s & s' & sw & g0 & g1 & r1 & g2 & r2 & p1 & p2 & Hz & Mu & V & V' & P & E1 & E2 & P1 & P2 & B1 & B2 & F). exists fi, mu, sw, g0, g1, r1, g2, r2, p1, p2.
  assert (Hk : 1 <= 3 <= 62) by lia. assert (Hs : forall p q q', insertion_sort p q = Some q' -> Permutation q q') by exact insertion_sort_perm. assert (Hl : (Z.of_nat 3 <= 65535)%Z) by lia. assert (Hc : 1 <> 0) by lia. assert (H2 : 2 * 1 <= 4) by lia.
  split; [exact (run_interleaved fi insertion_sort 1 4 3 3 Hk Hz Hs Hl Hc H2 g0 P)|]. split; [exact Mu|]. split; [exact (gstep_fine fi insertion_sort 1 4 3 3 Hk Hz Hs Hl Hc H2 g0 mu s sw g1 r1 P V E1)|]. split; [exact (gstep_fine fi insertion_sort 1 4 3 3 Hk Hz Hs Hl Hc H2 g0 mu s' sw g2 r2 P V' E2)|].
  split; [exact (run_interleaved fi insertion_sort 1 4 3 3 Hk Hz Hs Hl Hc H2 g1 P1)|]. split; [exact (run_interleaved fi insertion_sort 1 4 3 3 Hk Hz Hs Hl Hc H2 g2 P2)|]. auto.
Qed.
Print Assumptions C94_interleaving_decides_refuted.
