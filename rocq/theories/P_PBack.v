(** C94 for the polygon functions. *)
From Coq Require Import ZArith List Bool Lia Arith Permutation.
From Flocq Require Import IEEE754.BinarySingleNaN.
From Verif Require Import GoNum M_Norm M_Slice M_Geom S_Geom M_Image S_Image M_Raster S_Norm M_Delaunay S_Delaunay S_Remove M_Algo S_Algo M_Fitness S_Fitness S_Run S_Run2 S_MemRun M_Voronoi S_Voronoi M_Polygons S_Polygons S_PolyRun S_PolyProg M_PFine S_PFine M_PFineRun S_PFineRun.
From Verif Require Import L_Slice L_Algo L_Algo2 L_Hold L_Fit L_Sim L_Fwd L_Poly L_PFwd L_PFine L_PFine2 L_PRace L_PFine3 L_FineRun L_PFineRun L_PBack P_Delaunay P_Algo P_AlgoEx P_Run P_Run2 P_PolyRun P_PolyProg P_PFine P_PFineRun P_Back.
Import ListNotations.
Local Open Scope nat_scope.

Section Polygons.
Context (im : idata) (bs : Z) (fi : fimg) (srt : sorter) (hsrt : point -> list point -> option (list point)) (cutoff n l pow2 : nat).
Hypothesis U : usual_program im bs fi srt hsrt cutoff n l pow2.
Notation ev := (pparallel fi srt hsrt).
Lemma pcalc_fine c s c1 r1 : polygon_start fi srt hsrt cutoff n l pow2 c -> valid_schedule n s -> simple_calc ev s c = Some (c1, r1) -> exists st, vfine_calc fi srt hsrt c st /\ vs_core st = c1 /\ vs_res st = r1.
Proof.
  intros S V E. destruct (usual_started im bs fi srt hsrt cutoff n l pow2 U c S) as [_ _ _ _ Fi Lp Lm]. unfold simple_calc in E. destruct (Nat.eqb_spec (length (c_pop c)) 0) as [|Np]; [discriminate|].
  assert (Lf : 1 <= length (c_fits c)). { destruct (valid_ordered n s V) as [_ Rc]. pose proof (some_fits ev s c [] c1 r1 E 0 (proj2 (Rc 0) ltac:(lia))). lia. }
  destruct (schedule_run fi srt hsrt n c 1 [[]] Fi ltac:(lia) ltac:(lia) ltac:(discriminate) Lf eq_refl) with (s := s) as (t & st & ben & R & F & G); [|exact V|].
  - intros t st a R En. exact (proj1 (C91_simple_total im bs fi srt hsrt cutoff n l pow2 c s c1 r1 U S V E t st R) a En).
  - destruct (gacts_core ev 1 s _ _ _ _ G) as [X _]. cbn [g_core] in X. pose proof (eq_trans (eq_sym E) X) as Y. injection Y as Y1 Y2. exists st. split; [|split; symmetry; assumption]. split; [exact Np|]. exists t. rewrite Lp. split; [|exact F]. exact (grun_run fi srt hsrt n c 1 [[]] t (st, ben) R).
Qed.
Lemma polygons_interleaved c : polygon_program fi srt hsrt cutoff n l pow2 c -> interleaved_polygons fi srt hsrt cutoff n l pow2 c.
Proof.
  induction 1 as [groups s sw c r Gr V E So|c mu s sw c' r P IH Mu V E So].
  - apply (ip_new _ _ _ _ _ _ _ groups sw c r Gr); [|exact So]. unfold new_simple in E. destruct (init_core groups (new_pparallel n pow2)) as [c1|] eqn:I; [|discriminate]. destruct (simple_calc ev s c1) as [[c2 r2]|] eqn:Ca; [|discriminate]. destruct (update_fitnesses ev sw c2) as [c3|] eqn:Up; [|discriminate]. injection E as <- <-.
    destruct (pcalc_fine c1 s c2 r2 (ps_new _ _ _ _ _ _ _ groups c1 Gr I) V Ca) as (st & Fc & <- & <-). exact (vns fi srt hsrt groups _ sw c1 st c3 I Fc Up).
  - apply (ip_step _ _ _ _ _ _ _ c mu sw c' r IH Mu); [|exact So]. unfold simple_step in E. destruct (new_generation ev mu cutoff (length (c_pop c)) c) as [c1|] eqn:G; [|discriminate]. destruct (simple_calc ev s c1) as [[c2 r2]|] eqn:Ca; [|discriminate]. destruct (update_fitnesses ev sw c2) as [c3|] eqn:Up; [|discriminate]. injection E as <- <-.
    pose proof G as G'. rewrite (polygon_pop im bs fi srt hsrt cutoff n l pow2 U c P) in G'. destruct (pcalc_fine c1 s c2 r2 (ps_step _ _ _ _ _ _ _ c mu c1 P Mu G') V Ca) as (st & Fc & <- & <-). exact (vss fi srt hsrt cutoff mu sw c c1 st c3 G Fc Up).
Qed.
Hypothesis H2c : 2 * cutoff <= n.
Notation gruns := (genetic_run_on ev (new_pparallel n pow2) cutoff n l).
Lemma pgcalc_fine g s g1 r1 : polygon_gstart fi srt hsrt cutoff n l pow2 (g_core g) -> length (c_fits (g_core g)) = n -> length (g_ben g) = cutoff -> valid_schedule (n - cutoff) s -> g_calc ev cutoff s g = Some (g1, r1) ->
  exists st, gvfine_calc fi srt hsrt cutoff g st (g_ben g1) /\ vs_core st = g_core g1 /\ vs_res st = r1.
Proof.
  intros S Lf Lb V E. assert (Hc : cutoff <> 0) by (destruct U as (_ & _ & _ & _ & Hc & _); exact Hc). destruct (usual_gstarted im bs fi srt hsrt cutoff n l pow2 U H2c _ S) as [_ _ _ _ Fi Lp Lm]. unfold g_calc in E. destruct (Nat.leb_spec (length (c_pop (g_core g))) cutoff) as [|Np]; [discriminate|]. destruct (gacts_core ev cutoff s g [] g1 r1 E) as [E1 _].
  destruct (schedule_run fi srt hsrt (n - cutoff) (g_core g) cutoff (g_ben g) Fi ltac:(lia) ltac:(lia) Hc ltac:(lia) Lb) with (s := s) as (t & st & ben & R & F & G); [|exact V|].
  - intros t st a R En. exact (proj1 (C91_genetic_total im bs fi srt hsrt cutoff n l pow2 (g_core g) s (g_core g1) r1 U H2c S V E1 t st R) a En).
  - assert (Y : Some (g1, r1) = Some (MGen (vs_core st) ben, vs_res st)) by (rewrite <- G, <- E; destruct g; reflexivity). injection Y as -> ->. exists st. split; [|split; reflexivity]. split; [exact Np|]. exists t. rewrite Lp. cbn [g_ben]. auto.
Qed.
Lemma pgstart_fits c : polygon_gstart fi srt hsrt cutoff n l pow2 c -> length (c_fits c) = n.
Proof.
  intros [groups c1 [L _] I|g0 mu c1 R Mu G].
  - rewrite <- L. destruct groups; [discriminate|]. injection I as <-. cbn [c_fits length]. rewrite repeat_length. reflexivity.
  - rewrite (generation_nfits _ _ _ _ _ _ G). exact (proj1 (proj2 (pgrun_sizes im bs fi srt hsrt cutoff n l pow2 U H2c g0 R))).
Qed.
Lemma pgrun_interleaved g : gruns g -> interleaved_pgenetic fi srt hsrt cutoff n l pow2 g.
Proof.
  induction 1 as [groups s sw g r L Gf V E So Po|g mu s sw g' r P IH Mu V E So Po].
  - apply (ipg_new _ _ _ _ _ _ _ groups sw g r (conj L Gf)); [|exact So|exact Po]. unfold new_genetic in E. destruct (init_core groups (new_pparallel n pow2)) as [c1|] eqn:I; [|discriminate]. destruct (g_calc ev cutoff s (MGen c1 (repeat [] cutoff))) as [[g2 r2]|] eqn:Ca; [|discriminate]. destruct (update_fitnesses ev sw (g_core g2)) as [c3|] eqn:Up; [|discriminate]. injection E as <- <-.
    pose proof (pgs_new fi srt hsrt cutoff n l pow2 groups c1 (conj L Gf) I) as S. destruct (pgcalc_fine (MGen c1 (repeat [] cutoff)) s g2 r2 S (pgstart_fits c1 S) (repeat_length _ _) V Ca) as (st & Fc & Ec & <-). apply (vng fi srt hsrt cutoff groups _ sw c1 st (g_ben g2) c3 I Fc). rewrite Ec. exact Up.
  - apply (ipg_step _ _ _ _ _ _ _ g mu sw g' r IH Mu); [|exact So|exact Po]. unfold genetic_step in E. destruct (pgrun_sizes im bs fi srt hsrt cutoff n l pow2 U H2c g P) as (Lp & Lf & Lb). destruct (new_generation ev mu cutoff (length (c_pop (g_core g)) - cutoff) (g_core g)) as [c1|] eqn:G; [|discriminate].
    destruct (g_calc ev cutoff s (MGen c1 (map (fun _ => []) (g_ben g)))) as [[g2 r2]|] eqn:Ca; [|discriminate]. destruct (combine_muts ev cutoff cutoff (length (c_pop (g_core g)) - cutoff) (g2, r2)) as [[g3 r3]|] eqn:Co; [|discriminate]. destruct (update_fitnesses ev sw (g_core g3)) as [c3|] eqn:Up; [|discriminate]. injection E as <- <-.
    pose proof G as G'. rewrite Lp in G'. pose proof (pgs_step fi srt hsrt cutoff n l pow2 g mu c1 P Mu G') as S. destruct (pgcalc_fine (MGen c1 (map (fun _ => []) (g_ben g))) s g2 r2 S (pgstart_fits c1 S) ltac:(cbn [g_ben]; rewrite map_length; exact Lb) V Ca) as (st & Fc & Ec & Er).
    apply (vgs fi srt hsrt cutoff mu sw g c1 st (g_ben g2) g3 r3 c3 G Fc); [|exact Up]. rewrite Ec, Er. destruct g2. exact Co.
Qed.
End Polygons.
Theorem C94_polygons : forall im bs fi srt hsrt cutoff n l pow2 c, usual_program im bs fi srt hsrt cutoff n l pow2 -> polygon_program fi srt hsrt cutoff n l pow2 c <-> interleaved_polygons fi srt hsrt cutoff n l pow2 c.
Proof. intros im bs fi srt hsrt cutoff n l pow2 c U. split; [exact (polygons_interleaved im bs fi srt hsrt cutoff n l pow2 U c)|exact (C93_simple im bs fi srt hsrt cutoff n l pow2 c U)]. Qed.
Print Assumptions C94_polygons.
Theorem C94_polygons_genetic : forall im bs fi srt hsrt cutoff n l pow2 g, usual_program im bs fi srt hsrt cutoff n l pow2 -> 2 * cutoff <= n ->
  genetic_run_on (pparallel fi srt hsrt) (new_pparallel n pow2) cutoff n l g <-> interleaved_pgenetic fi srt hsrt cutoff n l pow2 g.
Proof. intros im bs fi srt hsrt cutoff n l pow2 g U H2. split; [exact (pgrun_interleaved im bs fi srt hsrt cutoff n l pow2 U H2 g)|exact (C93_genetic im bs fi srt hsrt cutoff n l pow2 g U H2)]. Qed.
Print Assumptions C94_polygons_genetic.
(** The state of C69_case, reached with interleaved workers: with the usual hypotheses. *)
Example C94_polygons_case : exists d fi c0, to_data waves = Some d /\ usual_program (as_idata d) 2 fi slice_sort insertion_sort 1 2 5 3 /\ interleaved_polygons fi slice_sort insertion_sort 1 2 5 3 c0.
Proof. destruct C69_case as (d & fi & c0 & E & U & P). exists d, fi, c0. split; [exact E|]. split; [exact U|]. apply (C94_polygons _ _ _ _ _ _ _ _ _ _ U), P. Qed.
