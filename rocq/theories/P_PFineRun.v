(** C93: C92 for the polygon functions. *)
From Coq Require Import ZArith List Bool Lia Arith Permutation.
From Flocq Require Import IEEE754.BinarySingleNaN.
From Verif Require Import GoNum M_Norm M_Slice M_Geom S_Geom M_Image S_Image M_Raster S_Norm M_Delaunay S_Delaunay S_Remove M_Algo S_Algo M_Fitness S_Fitness S_Run S_Run2 S_MemRun M_Voronoi S_Voronoi M_Polygons S_Polygons S_PolyRun S_PolyProg M_Fine M_PFine S_PFine M_PFineRun S_PFineRun.
From Verif Require Import L_Slice L_Algo L_Algo2 L_Hold L_Fit L_Sim L_Fwd L_Poly L_PFwd L_PFine L_PFine2 L_PRace L_PFine3 L_FineRun L_PFineRun L_Image L_SliceSort P_Delaunay P_Remove P_Voronoi P_Algo P_AlgoEx P_AlgoEx2 P_Fitness P_Run P_Run2 P_PolyRun P_PolyProg P_FineRun P_PFine.
Import ListNotations.
Local Open Scope nat_scope.

Section Polygons.
Context (im : idata) (bs : Z) (fi : fimg) (srt : sorter) (hsrt : point -> list point -> option (list point)) (cutoff n l pow2 : nat).
Hypothesis U : usual_program im bs fi srt hsrt cutoff n l pow2.
Notation ev := (pparallel fi srt hsrt).
Lemma usual_started c : polygon_start fi srt hsrt cutoff n l pow2 c -> vstarted fi srt n l pow2 n c.
Proof. destruct U as (Him & SO & Hh & Hl & Hcut & Hk & Hn). exact (polygon_started im bs fi srt hsrt cutoff n l pow2 Him SO Hh Hl Hcut Hk c). Qed.
Lemma polygon_pop c : polygon_program fi srt hsrt cutoff n l pow2 c -> length (c_pop c) = n.
Proof.
  intros R. destruct U as (Him & SO & Hh & Hl & Hcut & Hk & Hn). destruct (pprogram_inv im bs fi srt hsrt cutoff n l pow2 Him SO Hh Hl Hcut Hk c R) as [_ H _ _ _]. destruct (simple_history_shape _ cutoff n l _ Hcut H) as [Sh _]. exact (sh_pop _ _ _ Sh).
Qed.
Lemma pcalc_coarse c st : polygon_start fi srt hsrt cutoff n l pow2 c -> vfine_calc fi srt hsrt c st -> exists s, valid_schedule n s /\ simple_calc ev s c = Some (vs_core st, vs_res st).
Proof.
  intros S (Ln & t & R & F). pose proof (vd_pop _ _ _ _ _ _ _ (usual_started c S)) as Lp. rewrite Lp in R. destruct (C91_simple im bs fi srt hsrt cutoff n l pow2 c t st U S R F) as (s & V & E). exists s. split; [exact V|]. unfold simple_calc. destruct (Nat.eqb_spec (length (c_pop c)) 0); [contradiction|exact E].
Qed.
Lemma pnew_coarse groups sw c r : point_groups n l groups -> vfine_new_simple fi srt hsrt groups (new_pparallel n pow2) sw c r -> exists s, valid_schedule n s /\ new_simple ev groups (new_pparallel n pow2) s sw = Some (c, r).
Proof.
  intros L [c1 st c' I Ca Up]. destruct (pcalc_coarse c1 st (ps_new _ _ _ _ _ _ _ groups c1 L I) Ca) as (s & V & E). exists s. split; [exact V|]. unfold new_simple. rewrite I, E, Up. reflexivity.
Qed.
Lemma pstep_coarse c mu sw c' r : polygon_program fi srt hsrt cutoff n l pow2 c -> mutator_ok mu -> vfine_simple_step fi srt hsrt cutoff mu sw c c' r -> exists s, valid_schedule n s /\ simple_step ev cutoff mu s sw c = Some (c', r).
Proof.
  intros R Mu [c1 st c2 G Ca Up]. pose proof G as G'. rewrite (polygon_pop c R) in G'. destruct (pcalc_coarse c1 st (ps_step _ _ _ _ _ _ _ c mu c1 R Mu G') Ca) as (s & V & E). exists s. split; [exact V|]. unfold simple_step. rewrite G, E, Up. reflexivity.
Qed.
Lemma interleaved_polygon_program c : interleaved_polygons fi srt hsrt cutoff n l pow2 c -> polygon_program fi srt hsrt cutoff n l pow2 c.
Proof.
  induction 1 as [groups sw c r G E So|c mu sw c' r _ IH Mu E So].
  - destruct (pnew_coarse groups sw c r G E) as (s & V & E'). exact (pg_new _ _ _ _ _ _ _ groups s sw c r G V E' So).
  - destruct (pstep_coarse c mu sw c' r IH Mu E) as (s & V & E'). exact (pg_step _ _ _ _ _ _ _ c mu s sw c' r IH Mu V E' So).
Qed.
Lemma pends lim c t st : vstarted fi srt n l pow2 lim c -> lim <= n -> vfine_run fi srt hsrt (vfine_start lim c) t st -> vmust_end fi srt hsrt st.
Proof.
  intros [_ _ _ _ Fi P M] Hl R. apply (fine_ends fi srt hsrt lim c Fi st). apply (sim_run fi srt hsrt lim c Fi t st); [lia|lia|exact R].
Qed.

(** * modifiedGenetic *)
Hypothesis H2c : 2 * cutoff <= n.
Notation gruns := (genetic_run_on ev (new_pparallel n pow2) cutoff n l).
Lemma usual_gstarted c : polygon_gstart fi srt hsrt cutoff n l pow2 c -> vstarted fi srt n l pow2 (n - cutoff) c.
Proof. destruct U as (Him & SO & Hh & Hl & Hcut & Hk & Hn). exact (polygon_gstarted im bs fi srt hsrt cutoff n l pow2 Him SO Hh Hl Hcut Hk H2c c). Qed.
Lemma pgrun_sizes g : gruns g -> length (c_pop (g_core g)) = n /\ length (c_fits (g_core g)) = n /\ length (g_ben g) = cutoff.
Proof. intros R. destruct U as (Him & SO & Hh & Hl & Hcut & Hk & Hn). destruct (pgenetic_rest im bs fi srt hsrt cutoff n l pow2 Him SO Hh Hl Hcut Hk H2c g R) as [_ [B _] F Be]. auto. Qed.
Lemma pgcalc_coarse g st ben : polygon_gstart fi srt hsrt cutoff n l pow2 (g_core g) -> gvfine_calc fi srt hsrt cutoff g st ben -> exists s, valid_schedule (n - cutoff) s /\ g_calc ev cutoff s g = Some (MGen (vs_core st) ben, vs_res st).
Proof.
  intros S (Ln & t & R & F). destruct (usual_gstarted _ S) as [_ _ _ _ Fi Lp Lm]. rewrite Lp in R, Ln. destruct (gsim_run fi srt hsrt (n - cutoff) (g_core g) Fi cutoff (g_ben g) t (st, ben) ltac:(lia) ltac:(lia) R) as (q & cc & G).
  destruct (gsim_ended fi srt hsrt (n - cutoff) (g_core g) cutoff (g_ben g) q st ben cc G F) as [V E]. exists q. split; [exact V|]. unfold g_calc. destruct (Nat.leb_spec (length (c_pop (g_core g))) cutoff); [lia|]. destruct g. exact E.
Qed.
Lemma pgnew_coarse groups sw g r : point_groups n l groups -> vfine_new_genetic fi srt hsrt cutoff groups (new_pparallel n pow2) sw g r -> exists s, valid_schedule (n - cutoff) s /\ new_genetic ev cutoff groups (new_pparallel n pow2) s sw = Some (g, r).
Proof.
  intros L [c1 st ben c I Ca Up]. destruct (pgcalc_coarse (MGen c1 (repeat [] cutoff)) st ben (pgs_new _ _ _ _ _ _ _ groups c1 L I) Ca) as (s & V & E). exists s. split; [exact V|]. unfold new_genetic. rewrite I, E. cbn [g_core g_ben]. rewrite Up. reflexivity.
Qed.
Lemma pgstep_coarse g mu sw g' r : gruns g -> mutator_ok mu -> vfine_genetic_step fi srt hsrt cutoff mu sw g g' r -> exists s, valid_schedule (n - cutoff) s /\ genetic_step ev cutoff mu s sw g = Some (g', r).
Proof.
  intros R Mu [c1 st ben g3 r' c G Ca Co Up]. pose proof G as G'. rewrite (proj1 (pgrun_sizes g R)) in G'. destruct (pgcalc_coarse (MGen c1 (map (fun _ => []) (g_ben g))) st ben (pgs_step _ _ _ _ _ _ _ g mu c1 R Mu G') Ca) as (s & V & E). exists s. split; [exact V|].
  unfold genetic_step. rewrite G, E, Co, Up. reflexivity.
Qed.
Lemma interleaved_pgenetic_run g : interleaved_pgenetic fi srt hsrt cutoff n l pow2 g -> gruns g.
Proof.
  induction 1 as [groups sw g r [L Gf] E So Po|g mu sw g' r _ IH Mu E So Po].
  - destruct (pgnew_coarse groups sw g r (conj L Gf) E) as (s & V & E'). exact (go_new _ _ _ _ _ groups s sw g r L Gf V E' So Po).
  - destruct (pgstep_coarse g mu sw g' r IH Mu E) as (s & V & E'). exact (go_step _ _ _ _ _ g mu s sw g' r IH Mu V E' So Po).
Qed.
Lemma vnote_returns i (c : core ppar) ben : cutoff <= length (c_fits c) -> length ben = cutoff -> i < length (c_muts c) -> vnote_one cutoff i c ben <> None.
Proof.
  destruct U as (_ & _ & _ & _ & Hc & _). intros Lf Lb Lm. unfold vnote_one, set_beneficial, get_base. destruct (Nat.eqb_spec cutoff 0); [contradiction|]. pose proof (Nat.mod_upper_bound i cutoff Hc) as B. destruct (Nat.ltb_spec (i mod cutoff) (length (c_fits c))); [|lia]. destruct (flt _ _); [|discriminate].
  destruct (nth_error (c_muts c) i) as [ms|] eqn:E; [|apply nth_error_None in E; lia]. destruct (nth_error ben (i mod cutoff)) eqn:E2; [discriminate|apply nth_error_None in E2; lia].
Qed.
(** Noting the mutations does not panic: if a step does, it is one of the functions. *)
Lemma gstep_panic g t x a : polygon_gstart fi srt hsrt cutoff n l pow2 (g_core g) -> length (c_fits (g_core g)) = n -> length (g_ben g) = cutoff ->
  gvfine_run fi srt hsrt cutoff (vfine_start (n - cutoff) (g_core g), g_ben g) t x -> venabled (fst x) a -> gvfine_step fi srt hsrt cutoff x a = None -> vfine_step fi srt hsrt (fst x) a = None.
Proof.
  intros S Lf Lb R En. destruct (usual_gstarted _ S) as [_ _ _ _ Fi Lp Lm]. destruct x as [st ben]. cbn [fst] in *. unfold gvfine_step. cbn [fst snd]. destruct (vfine_step fi srt hsrt st a) as [st'|] eqn:Es; [|reflexivity]. destruct a; try discriminate. destruct (vs_main st) as [[i [|d k]]|] eqn:M; try discriminate.
  destruct (gsim_run fi srt hsrt (n - cutoff) (g_core g) Fi cutoff (g_ben g) t (st, ben) ltac:(lia) ltac:(lia) R) as (q & cc & G). pose proof (upd_gsim fi srt hsrt (n - cutoff) (g_core g) Fi cutoff (g_ben g) q st ben cc st' G En Es) as X. rewrite M in X. destruct X as (cc' & J' & Ec & Ef).
  pose proof (proj2 G) as G2. cbn [fst snd] in G2. destruct (gacts_core ev cutoff q _ [] _ _ G2) as [_ Lb2]. cbn [g_ben] in Lb2.
  pose proof (j_main _ _ _ _ _ _ _ _ (proj1 G)) as Jm. cbn [fst] in Jm. rewrite M in Jm. destruct Jm as (Li & _).
  assert (Lf' : length (c_fits cc') = n). { pose proof (j_run _ _ _ _ _ _ _ _ J') as Jr. rewrite (gacts_fits _ _ _ _ _ _ Jr). exact Lf. }
  assert (Lm' : length (c_muts cc') = n) by (rewrite (j_c _ _ _ _ _ _ _ _ J'); exact Lm).
  assert (N : vnote_one cutoff i (vs_core st') ben <> None). { rewrite <- (note_same cutoff i cc' (vs_core st') ben Ef); [apply vnote_returns; lia|rewrite Ec; destruct cc'; reflexivity]. } destruct (vnote_one cutoff i (vs_core st') ben); [discriminate|destruct (N eq_refl)].
Qed.
End Polygons.

(** C93 for simple: every state reached with interleaved workers is one of the runs of C69. *)
Theorem C93_simple : forall im bs fi srt hsrt cutoff n l pow2 c, usual_program im bs fi srt hsrt cutoff n l pow2 -> interleaved_polygons fi srt hsrt cutoff n l pow2 c -> polygon_program fi srt hsrt cutoff n l pow2 c.
Proof. intros im bs fi srt hsrt cutoff n l pow2 c U. exact (interleaved_polygon_program im bs fi srt hsrt cutoff n l pow2 U c). Qed.
Print Assumptions C93_simple.
(** So every fitness is that of the Voronoi cells of the member, however the workers ran. *)
Theorem C93_cells : forall im bs fi srt hsrt cutoff n l pow2 c, usual_program im bs fi srt hsrt cutoff n l pow2 -> interleaved_polygons fi srt hsrt cutoff n l pow2 c ->
  forall i, i < n -> is_finite (nth i (c_fits c) f0) = true /\ evaluated_cells fi (c_ev c) i (nth i (members c) []) (nth i (c_fits c) f0).
Proof. intros im bs fi srt hsrt cutoff n l pow2 c U R. exact (C69_cells im bs fi srt hsrt cutoff n l pow2 c U (C93_simple _ _ _ _ _ _ _ _ _ _ U R)). Qed.
Print Assumptions C93_cells.
(** NewSimple: if the diagram of no member panics, then with every interleaving of the workers it
    returns: no step panics, none goes on for ever, and sorting returns when all steps are done. *)
Theorem C93_new : forall im bs fi srt hsrt cutoff n l pow2 groups, usual_program im bs fi srt hsrt cutoff n l pow2 -> point_groups n l groups ->
  (forall i, i < n -> iv_history srt hsrt (fi_w fi) (fi_h fi) (map MAdd (map (mut_point fi) (nth i groups []))) <> None) ->
  exists c1, init_core groups (new_pparallel n pow2) = Some c1 /\ forall t st, vfine_run fi srt hsrt (vfine_start n c1) t st ->
    vmust_end fi srt hsrt st /\ (forall a, venabled st a -> vfine_step fi srt hsrt st a <> None) /\
    (vfinished st -> forall sw, swaps_within n sw -> exists c, vfine_new_simple fi srt hsrt groups (new_pparallel n pow2) sw c (vs_res st)).
Proof.
  intros im bs fi srt hsrt cutoff n l pow2 groups U Gr Ok. destruct (some_schedule n) as (s & V).
  assert (Ret : forall s sw, valid_schedule n s -> swaps_within n sw -> new_simple (pparallel fi srt hsrt) groups (new_pparallel n pow2) s sw <> None).
  { intros s' sw V' W' E. apply (C69_new_simple im bs fi srt hsrt cutoff n l pow2 groups s' sw U Gr V' W') in E as (i & Hi & E). exact (Ok i Hi E). }
  destruct (init_core groups (new_pparallel n pow2)) as [c1|] eqn:I; [|destruct (Ret s [] V ltac:(intros ? [])); unfold new_simple; rewrite I; reflexivity].
  exists c1. split; [reflexivity|]. intros t st R. pose proof (ps_new fi srt hsrt cutoff n l pow2 groups c1 Gr I) as S. pose proof (usual_started im bs fi srt hsrt cutoff n l pow2 U c1 S) as D. split; [exact (pends fi srt hsrt n l pow2 n c1 t st D (le_n n) R)|]. split.
  - destruct (do_acts (pparallel fi srt hsrt) s (c1, [])) as [[c2 r2]|] eqn:E.
    + exact (proj1 (C91_simple_total im bs fi srt hsrt cutoff n l pow2 c1 s c2 r2 U S V E t st R)).
    + destruct (Ret s [] V ltac:(intros ? [])). unfold new_simple, simple_calc. rewrite I. destruct (_ =? 0); [reflexivity|]. rewrite E. reflexivity.
  - intros F sw W. destruct (C91_simple im bs fi srt hsrt cutoff n l pow2 c1 t st U S R F) as (s' & V' & E'). pose proof (Ret s' sw V' W) as X. unfold new_simple, simple_calc in X. rewrite I in X. destruct (Nat.eqb_spec (length (c_pop c1)) 0) as [|Np]; [destruct (X eq_refl)|]. rewrite E' in X. destruct (update_fitnesses _ sw (vs_core st)) as [c4|] eqn:Up; [|destruct (X eq_refl)].
    exists c4. apply (vns fi srt hsrt groups _ sw c1 st c4 I); [|exact Up]. split; [exact Np|]. exists t. rewrite (vd_pop _ _ _ _ _ _ _ D). auto.
Qed.
Print Assumptions C93_new.
(** Step: no interleaving goes on for ever; a step of one panics only if a comparison of cell
    vertices of a child does; and if all steps are done, sorting makes the next state. *)
Theorem C93_step : forall im bs fi srt hsrt cutoff n l pow2 c mu, usual_program im bs fi srt hsrt cutoff n l pow2 -> cutoff <= n -> interleaved_polygons fi srt hsrt cutoff n l pow2 c -> mutator_ok mu ->
  (new_generation (pparallel fi srt hsrt) mu cutoff n c = None -> child_panics fi cutoff n mu c) /\
  forall c1 t st, new_generation (pparallel fi srt hsrt) mu cutoff n c = Some c1 -> vfine_run fi srt hsrt (vfine_start n c1) t st ->
    vmust_end fi srt hsrt st /\ (forall a, venabled st a -> vfine_step fi srt hsrt st a = None -> child_panics fi cutoff n mu c) /\
    (vfinished st -> forall sw, swaps_within n sw -> (exists c', vfine_simple_step fi srt hsrt cutoff mu sw c c' (vs_res st)) \/ child_panics fi cutoff n mu c).
Proof.
  intros im bs fi srt hsrt cutoff n l pow2 c mu U Hcn Is Mu. pose proof (C93_simple _ _ _ _ _ _ _ _ _ _ U Is) as P. pose proof (polygon_pop im bs fi srt hsrt cutoff n l pow2 U c P) as Lc. destruct (some_schedule n) as (s & V). split.
  - intros G. apply (C69_step_panic im bs fi srt hsrt cutoff n l pow2 c mu s [] U Hcn P Mu V ltac:(intros ? [])). unfold simple_step. rewrite Lc, G. reflexivity.
  - intros c1 t st G R. pose proof (ps_step fi srt hsrt cutoff n l pow2 c mu c1 P Mu G) as S. pose proof (usual_started im bs fi srt hsrt cutoff n l pow2 U c1 S) as D. split; [exact (pends fi srt hsrt n l pow2 n c1 t st D (le_n n) R)|]. split.
    + intros a En Es. destruct (do_acts (pparallel fi srt hsrt) s (c1, [])) as [[c2 r2]|] eqn:E.
      * destruct (C91_simple_total im bs fi srt hsrt cutoff n l pow2 c1 s c2 r2 U S V E t st R) as (A & _). destruct (A a En Es).
      * apply (C69_step_panic im bs fi srt hsrt cutoff n l pow2 c mu s [] U Hcn P Mu V ltac:(intros ? [])). unfold simple_step. rewrite Lc, G. unfold simple_calc. destruct (_ =? 0); [reflexivity|]. rewrite E. reflexivity.
    + intros F sw W. destruct (C91_simple im bs fi srt hsrt cutoff n l pow2 c1 t st U S R F) as (s' & V' & E'). destruct (simple_step (pparallel fi srt hsrt) cutoff mu s' sw c) as [[c3 r3]|] eqn:E2; [left|right; exact (C69_step_panic im bs fi srt hsrt cutoff n l pow2 c mu s' sw U Hcn P Mu V' W E2)].
      unfold simple_step in E2. rewrite Lc, G in E2. unfold simple_calc in E2. destruct (Nat.eqb_spec (length (c_pop c1)) 0) as [|Np]; [discriminate|]. rewrite E' in E2. destruct (update_fitnesses _ sw (vs_core st)) as [c4|] eqn:Up; [|discriminate].
      exists (next_gen c4). apply (vss fi srt hsrt cutoff mu sw c c1 st c4); [rewrite Lc; exact G| |exact Up]. split; [exact Np|]. exists t. rewrite (vd_pop _ _ _ _ _ _ _ D). auto.
Qed.
Print Assumptions C93_step.
Theorem C93_best : forall im bs fi srt hsrt cutoff n l pow2 c mu sw c' r, usual_program im bs fi srt hsrt cutoff n l pow2 -> cutoff <= n -> interleaved_polygons fi srt hsrt cutoff n l pow2 c -> mutator_ok mu ->
  vfine_simple_step fi srt hsrt cutoff mu sw c c' r -> sort_sorts (c_fits c') ->
  is_finite (stats_best c) = true /\ is_finite (stats_best c') = true /\ not_above (stats_best c) (stats_best c') /\ forall f, In f (c_fits c') -> not_above f (stats_best c').
Proof.
  intros im bs fi srt hsrt cutoff n l pow2 c mu sw c' r U Hcn Is Mu E So. pose proof (C93_simple _ _ _ _ _ _ _ _ _ _ U Is) as P. destruct (pstep_coarse im bs fi srt hsrt cutoff n l pow2 U c mu sw c' r P Mu E) as (s & V & E').
  exact (C69_best im bs fi srt hsrt cutoff n l pow2 c mu s sw c' r U Hcn P Mu V E' So).
Qed.
Print Assumptions C93_best.
(** C93 for modifiedGenetic: the runs of C68. *)
Theorem C93_genetic : forall im bs fi srt hsrt cutoff n l pow2 g, usual_program im bs fi srt hsrt cutoff n l pow2 -> 2 * cutoff <= n -> interleaved_pgenetic fi srt hsrt cutoff n l pow2 g ->
  genetic_run_on (pparallel fi srt hsrt) (new_pparallel n pow2) cutoff n l g.
Proof. intros im bs fi srt hsrt cutoff n l pow2 g U H2. exact (interleaved_pgenetic_run im bs fi srt hsrt cutoff n l pow2 U H2 g). Qed.
Print Assumptions C93_genetic.
Theorem C93_genetic_step : forall im bs fi srt hsrt cutoff n l pow2 g mu, usual_program im bs fi srt hsrt cutoff n l pow2 -> 2 * cutoff <= n -> interleaved_pgenetic fi srt hsrt cutoff n l pow2 g -> mutator_ok mu ->
  (new_generation (pparallel fi srt hsrt) mu cutoff (n - cutoff) (g_core g) = None -> gchild_panics fi cutoff n mu g) /\
  forall c1 t x, new_generation (pparallel fi srt hsrt) mu cutoff (n - cutoff) (g_core g) = Some c1 -> gvfine_run fi srt hsrt cutoff (vfine_start (n - cutoff) c1, map (fun _ => []) (g_ben g)) t x ->
    vmust_end fi srt hsrt (fst x) /\ (forall a, venabled (fst x) a -> gvfine_step fi srt hsrt cutoff x a = None -> gchild_panics fi cutoff n mu g) /\
    (vfinished (fst x) -> forall sw, swaps_within n sw -> (exists g' r, vfine_genetic_step fi srt hsrt cutoff mu sw g g' r) \/ gchild_panics fi cutoff n mu g).
Proof.
  intros im bs fi srt hsrt cutoff n l pow2 g mu U H2 Is Mu. pose proof (C93_genetic _ _ _ _ _ _ _ _ _ _ U H2 Is) as P. destruct (pgrun_sizes im bs fi srt hsrt cutoff n l pow2 U H2 g P) as (Lc & Lf & Lb). destruct (some_schedule (n - cutoff)) as (s & V). split.
  - intros G. apply (C69_genetic_step_panic im bs fi srt hsrt cutoff n l pow2 g mu s [] U H2 P Mu V ltac:(intros ? [])). unfold genetic_step. rewrite Lc, G. reflexivity.
  - intros c1 t x G R. pose proof (pgs_step fi srt hsrt cutoff n l pow2 g mu c1 P Mu G) as S. pose proof (usual_gstarted im bs fi srt hsrt cutoff n l pow2 U H2 c1 S) as D. pose proof (grun_run fi srt hsrt (n - cutoff) c1 cutoff _ t x R) as R1.
    pose proof (generation_nfits _ _ _ _ _ _ G) as Gf. assert (Lf1 : length (c_fits c1) = n) by congruence. assert (Lb1 : length (map (fun _ : bmuts => @nil (mut * nat)) (g_ben g)) = cutoff) by (rewrite map_length; exact Lb).
    split; [exact (pends fi srt hsrt n l pow2 (n - cutoff) c1 t (fst x) D (Nat.le_sub_l n cutoff) R1)|]. split.
    + intros a En Eg. pose proof (gstep_panic im bs fi srt hsrt cutoff n l pow2 U H2 (MGen c1 (map (fun _ => []) (g_ben g))) t x a S Lf1 Lb1 R En Eg) as Es. destruct (do_acts (pparallel fi srt hsrt) s (c1, [])) as [[c2 r2]|] eqn:E.
      * destruct (C91_genetic_total im bs fi srt hsrt cutoff n l pow2 c1 s c2 r2 U H2 S V E t (fst x) R1) as (A & _). destruct (A a En Es).
      * apply (C69_genetic_step_panic im bs fi srt hsrt cutoff n l pow2 g mu s [] U H2 P Mu V ltac:(intros ? [])). unfold genetic_step. rewrite Lc, G. unfold g_calc. destruct (_ <=? _); [reflexivity|]. destruct (g_acts _ cutoff s _) as [[g2 r2]|] eqn:Eg2; [|reflexivity]. destruct (gacts_core _ _ _ _ _ _ _ Eg2) as [X _]. cbn [g_core] in X. pose proof (eq_trans (eq_sym E) X) as Y. discriminate Y.
    + destruct x as [st ben]. cbn [fst] in *. intros F sw W. assert (Gc : gvfine_calc fi srt hsrt cutoff (MGen c1 (map (fun _ => []) (g_ben g))) st ben).
      { split; cbn [g_core g_ben]; rewrite (vd_pop _ _ _ _ _ _ _ D); [destruct U as (_ & _ & _ & _ & Hc & _); lia|]. exists t. auto. }
      destruct (pgcalc_coarse im bs fi srt hsrt cutoff n l pow2 U H2 (MGen c1 (map (fun _ => []) (g_ben g))) st ben S Gc) as (s' & V' & E').
      destruct (genetic_step (pparallel fi srt hsrt) cutoff mu s' sw g) as [[g3 r3]|] eqn:E2; [left|right; exact (C69_genetic_step_panic im bs fi srt hsrt cutoff n l pow2 g mu s' sw U H2 P Mu V' W E2)].
      unfold genetic_step in E2. rewrite Lc, G, E' in E2. destruct (combine_muts _ cutoff cutoff (n - cutoff) _) as [[g4 r4]|] eqn:Co; [|discriminate]. destruct (update_fitnesses _ sw (g_core g4)) as [c5|] eqn:Up; [|discriminate].
      exists (MGen (next_gen c5) (g_ben g4)), r4. apply (vgs fi srt hsrt cutoff mu sw g c1 st ben g4 r4 c5); [rewrite Lc; exact G|exact Gc|rewrite Lc; exact Co|exact Up].
Qed.
Print Assumptions C93_genetic_step.

(** * Examples, with real runs *)
Definition pcase_new (groups : list (list npoint)) (tr : list vact) (fi : fimg) : option (core ppar * vstate * list vact * core ppar) :=
  match init_core groups (new_pparallel 2 3) with None => None | Some c1 =>
  match vgo fi slice_sort insertion_sort tr (vfine_start 2 c1, []) with None => None | Some (st, t) =>
  match update_fitnesses (pev fi) [] (vs_core st) with None => None | Some c => Some (c1, st, t, c) end end end.
Definition pcase_step (mu : mutator) (tr : list vact) (fi : fimg) (sw : list (nat * nat)) (c : core ppar) : option (core ppar * vstate * list vact * core ppar) :=
  match new_generation (pev fi) mu 1 2 c with None => None | Some c1 =>
  match vgo fi slice_sort insertion_sort tr (vfine_start 2 c1, []) with None => None | Some (st, t) =>
  match update_fitnesses (pev fi) sw (vs_core st) with None => None | Some c2 => Some (c1, st, t, c2) end end end.
Definition pcase_check (groups : list (list npoint)) (mu : mutator) (tr : list vact) (sw : list (nat * nat)) (gf : option fimg) : bool :=
  match gf with None => false | Some fi =>
  match pcase_new groups tr fi with None => false | Some (c0, st, t, c) =>
  (length (c_pop c0) =? 2) && vquietb st && (10 <? length t) && sortedb (c_fits c) && (length (c_pop c) =? 2) &&
  match pcase_step mu tr fi sw c with None => false | Some (c1, st2, t2, c2) =>
  vquietb st2 && (20 <? length t2) && sortedb (c_fits c2) && (length (c_pop c1) =? 2) && flt (stats_best c) (stats_best (next_gen c2)) end end end.
Lemma pcase_ok groups mu tr sw gf : point_groups 2 5 groups -> mutator_ok mu -> pcase_check groups mu tr sw gf = true -> exists fi c0 c1 r, gf = Some fi /\ interleaved_polygons fi slice_sort insertion_sort 1 2 5 3 c0 /\
  vfine_simple_step fi slice_sort insertion_sort 1 mu sw c0 c1 r /\ interleaved_polygons fi slice_sort insertion_sort 1 2 5 3 c1 /\ flt (stats_best c0) (stats_best c1) = true.
Proof.
  intros Gr Mu. unfold pcase_check. destruct gf as [fi|]; [|discriminate]. destruct (pcase_new groups tr fi) as [[[[c1 st] t] c]|] eqn:E0; [|discriminate]. destruct (pcase_step _ _ _ _ _) as [[[[c1' st2] t2] c2]|] eqn:E1; [|rewrite !andb_false_r; discriminate].
  rewrite !andb_true_iff. intros [[[[[Lp Q0] T0] S0] L0] [[[[Q1 T1] S1] L1] F1]]. apply Nat.eqb_eq in L0, L1, Lp.
  unfold pcase_new in E0. destruct (init_core _ _) as [d1|] eqn:I0; [|discriminate]. destruct (vgo _ _ _ _ _) as [[y0 u0]|] eqn:R0; [|discriminate]. destruct (update_fitnesses _ _ _) as [e0|] eqn:U0; [|discriminate]. injection E0 as -> -> -> ->.
  unfold pcase_step in E1. destruct (new_generation _ _ _ _ _) as [d2|] eqn:I1; [|discriminate]. match type of E1 with context [vgo ?a ?b ?c ?d ?e] => destruct (vgo a b c d e) as [[y1 u1]|] eqn:R1' end; [|discriminate]. destruct (update_fitnesses _ sw _) as [e1|] eqn:U1; [|discriminate]. injection E1 as -> -> -> ->.
  assert (Z0 : vfine_new_simple fi slice_sort insertion_sort groups (new_pparallel 2 3) [] c (vs_res st)).
  { apply (vns _ _ _ _ _ _ c1 st c I0); [|exact U0]. split; rewrite Lp; [lia|]. exists t. split; [|apply vquiet_ok, Q0]. apply (vgo_run fi slice_sort insertion_sort _ tr (vfine_start 2 c1) [] st t); [constructor|exact R0]. }
  assert (A0 : interleaved_polygons fi slice_sort insertion_sort 1 2 5 3 c).
  { apply (ip_new _ _ _ _ _ _ _ groups [] _ (vs_res st)); [exact Gr|exact Z0|]. intros _. apply sortedb_ok, S0. }
  assert (Z1 : vfine_simple_step fi slice_sort insertion_sort 1 mu sw c (next_gen c2) (vs_res st2)).
  { apply (vss _ _ _ _ _ _ c c1' st2 c2); [rewrite L0; exact I1| |exact U1]. split; rewrite L1; [lia|]. exists t2. split; [|apply vquiet_ok, Q1]. apply (vgo_run fi slice_sort insertion_sort _ tr (vfine_start 2 c1') [] st2 t2); [constructor|exact R1']. }
  exists fi, c, (next_gen c2), (vs_res st2). split; [reflexivity|]. split; [exact A0|]. split; [exact Z1|]. split; [|exact F1].
  apply (ip_step _ _ _ _ _ _ _ c mu sw _ (vs_res st2) A0 Mu Z1). intros _. apply sortedb_ok, S1.
Qed.
Lemma pcase_checked : pcase_check (repeat pts3 2) nudge vturns [(0, 1)] grad_fi = true.
Proof. vm_compute. reflexivity. Qed.
(** Two generations with the steps of the workers in turns; the second is better. *)
Example C93_case : exists fi c0 c1 r, grad_fi = Some fi /\ interleaved_polygons fi slice_sort insertion_sort 1 2 5 3 c0 /\
  vfine_simple_step fi slice_sort insertion_sort 1 nudge [(0, 1)] c0 c1 r /\ interleaved_polygons fi slice_sort insertion_sort 1 2 5 3 c1 /\ flt (stats_best c0) (stats_best c1) = true.
Proof. apply (pcase_ok (repeat pts3 2) nudge vturns [(0, 1)] grad_fi); [exact pts3_groups|exact nudge_ok|exact pcase_checked]. Qed.

(** modifiedGenetic. *)
Fixpoint gvgo (im : fimg) (srt : sorter) (hsrt : point -> list point -> option (list point)) (cutoff : nat) (l : list vact) (x : (vstate * list bmuts) * list vact) : option ((vstate * list bmuts) * list vact) :=
  match l with
  | [] => Some x
  | a :: l' => if venabledb (fst (fst x)) a then match gvfine_step im srt hsrt cutoff (fst x) a with None => None | Some y => gvgo im srt hsrt cutoff l' (y, snd x ++ [a]) end else gvgo im srt hsrt cutoff l' x
  end.
Lemma gvgo_run im srt hsrt cutoff x0 l : forall x t x' t', gvfine_run im srt hsrt cutoff x0 t x -> gvgo im srt hsrt cutoff l (x, t) = Some (x', t') -> gvfine_run im srt hsrt cutoff x0 t' x'.
Proof.
  induction l as [|a l IH]; intros x t x' t' R; cbn [gvgo fst snd]; [intros [= <- <-]; exact R|]. destruct (venabledb (fst x) a) eqn:En; [|apply IH, R]. destruct (gvfine_step im srt hsrt cutoff x a) as [x1|] eqn:E; [|discriminate].
  apply IH. apply (gvr_snoc im srt hsrt cutoff x0 t x a x1 R); [apply venabledb_ok, En|exact E].
Qed.
Definition pgcase_new (groups : list (list npoint)) (tr : list vact) (fi : fimg) : option (core ppar * (vstate * list bmuts) * list vact * core ppar) :=
  match init_core groups (new_pparallel 3 3) with None => None | Some c1 =>
  match gvgo fi slice_sort insertion_sort 1 tr ((vfine_start 2 c1, repeat [] 1), []) with None => None | Some (x, t) =>
  match update_fitnesses (pev fi) [] (vs_core (fst x)) with None => None | Some c => Some (c1, x, t, c) end end end.
Definition pgcase_step (mu : mutator) (tr : list vact) (fi : fimg) (sw : list (nat * nat)) (g : mgen ppar) : option (core ppar * (vstate * list bmuts) * list vact * (mgen ppar * results) * core ppar) :=
  match new_generation (pev fi) mu 1 2 (g_core g) with None => None | Some c1 =>
  match gvgo fi slice_sort insertion_sort 1 tr ((vfine_start 2 c1, map (fun _ => []) (g_ben g)), []) with None => None | Some (x, t) =>
  match combine_muts (pev fi) 1 1 2 (MGen (vs_core (fst x)) (snd x), vs_res (fst x)) with None => None | Some (g3, r) =>
  match update_fitnesses (pev fi) sw (g_core g3) with None => None | Some c => Some (c1, x, t, (g3, r), c) end end end end.
Definition pgcase_check (groups : list (list npoint)) (mu : mutator) (tr : list vact) (gf : option fimg) : bool :=
  match gf with None => false | Some fi =>
    match pgcase_new groups tr fi with None => false | Some (c0, x, t, c) =>
  (length (c_pop c0) =? 3) && vquietb (fst x) && (10 <? length t) && sortedb (c_fits c) && all_pos (vs_res (fst x)) && (length (c_pop c) =? 3) &&
  match pgcase_step mu tr fi [(0, 2)] (MGen c (snd x)) with None => false | Some (c1, x2, t2, (g3, r), c2) =>
  vquietb (fst x2) && (20 <? length t2) && sortedb (c_fits c2) && all_pos r && (length (c_pop c1) =? 3) &&
  match g_ben g3 with [[_]] => true | _ => false end && flt (nth 0 (c_fits c) f0) (nth 0 (c_fits c2) f0) end end end.
Lemma pgcase_checked : pgcase_check (repeat pts3 3) nudge vturns grad_fi = true.
Proof. vm_compute. reflexivity. Qed.
Lemma pgcase_ok groups mu tr gf : point_groups 3 5 groups -> mutator_ok mu -> pgcase_check groups mu tr gf = true -> exists fi g0 g1 sw r m, gf = Some fi /\ interleaved_pgenetic fi slice_sort insertion_sort 1 3 5 3 g0 /\
  vfine_genetic_step fi slice_sort insertion_sort 1 mu sw g0 g1 r /\ interleaved_pgenetic fi slice_sort insertion_sort 1 3 5 3 g1 /\ g_ben g1 = [[m]] /\ flt (nth 0 (c_fits (g_core g0)) f0) (nth 0 (c_fits (g_core g1)) f0) = true.
Proof.
  intros Gr Mu. unfold pgcase_check. destruct gf as [fi|]; [|discriminate]. destruct (pgcase_new groups tr fi) as [[[[c1 x] t] c]|] eqn:E0; [|discriminate]. destruct (pgcase_step _ _ _) as [[[[[c1' x2] t2] [g3 r]] c2]|] eqn:E1; [|rewrite !andb_false_r; discriminate].
  rewrite !andb_true_iff. intros [[[[[[Lp Q0] T0] S0] P0] L0] [[[[[[Q1 T1] S1] P1] L1] B1] F1]]. apply Nat.eqb_eq in L0, L1, Lp.
  unfold pgcase_new in E0. destruct (init_core _ _) as [d1|] eqn:I0; [|discriminate]. destruct (gvgo _ _ _ _ _ _) as [[y0 u0]|] eqn:R0; [|discriminate]. destruct (update_fitnesses _ _ _) as [e0|] eqn:U0; [|discriminate]. injection E0 as -> -> -> ->.
  unfold pgcase_step in E1. destruct (new_generation _ _ _ _ _) as [d2|] eqn:I1; [|discriminate]. match type of E1 with context [gvgo ?a ?b ?c ?d ?e ?f] => destruct (gvgo a b c d e f) as [[y1 u1]|] eqn:R1' end; [|discriminate]. destruct (combine_muts _ _ _ _ _) as [[h3 k]|] eqn:C1'; [|discriminate]. destruct (update_fitnesses _ [(0, 2)] _) as [e1|] eqn:U1; [|discriminate]. injection E1 as -> -> -> -> -> ->.
  destruct x as [st ben], x2 as [st2 ben2]. cbn [fst snd g_core g_ben] in *.
  assert (Z0 : vfine_new_genetic fi slice_sort insertion_sort 1 groups (new_pparallel 3 3) [] (MGen c ben) (vs_res st)).
  { apply (vng _ _ _ _ _ _ _ c1 st ben c I0); [|exact U0]. split; cbn [g_core g_ben]; rewrite Lp; [lia|]. exists t. split; [|apply vquiet_ok, Q0]. apply (gvgo_run fi slice_sort insertion_sort 1 _ tr (vfine_start 2 c1, repeat [] 1) [] (st, ben) t); [constructor|exact R0]. }
  assert (A0 : interleaved_pgenetic fi slice_sort insertion_sort 1 3 5 3 (MGen c ben)).
  { apply (ipg_new _ _ _ _ _ _ _ groups [] _ (vs_res st)); [exact Gr|exact Z0|apply sortedb_ok, S0|apply all_pos_ok, P0]. }
  assert (Z1 : vfine_genetic_step fi slice_sort insertion_sort 1 mu [(0, 2)] (MGen c ben) (MGen (next_gen c2) (g_ben g3)) r).
  { apply (vgs _ _ _ _ _ _ (MGen c ben) c1' st2 ben2 g3 r c2); cbn [g_core g_ben]; rewrite ?L0; [exact I1| |exact C1'|exact U1]. split; cbn [g_core g_ben]; rewrite L1; [lia|]. exists t2. split; [|apply vquiet_ok, Q1]. apply (gvgo_run fi slice_sort insertion_sort 1 _ tr (vfine_start 2 c1', map (fun _ => []) ben) [] (st2, ben2) t2); [constructor|exact R1']. }
  destruct (g_ben g3) as [|[|m []] []] eqn:Bn; try discriminate. rewrite <- Bn in Z1. exists fi, (MGen c ben), (MGen (next_gen c2) (g_ben g3)), [(0, 2)], r, m. split; [reflexivity|]. split; [exact A0|]. split; [exact Z1|]. split; [|split; [exact Bn|exact F1]].
  apply (ipg_step _ _ _ _ _ _ _ (MGen c ben) mu [(0, 2)] _ r A0 Mu Z1); [apply sortedb_ok, S1|apply all_pos_ok, P1].
Qed.
(** The second generation notes a mutation of the best member and combines it with others. *)
Example C93_genetic_case : exists fi g0 g1 sw r m, grad_fi = Some fi /\ interleaved_pgenetic fi slice_sort insertion_sort 1 3 5 3 g0 /\
  vfine_genetic_step fi slice_sort insertion_sort 1 nudge sw g0 g1 r /\ interleaved_pgenetic fi slice_sort insertion_sort 1 3 5 3 g1 /\ g_ben g1 = [[m]] /\ flt (nth 0 (c_fits (g_core g0)) f0) (nth 0 (c_fits (g_core g1)) f0) = true.
Proof.
  apply (pgcase_ok (repeat pts3 3) nudge vturns grad_fi); [|exact nudge_ok|exact pgcase_checked]. split; [reflexivity|]. apply (pts_ok pts3). vm_compute. reflexivity.
Qed.

(** The hypotheses of C93_new together. *)
Example C93_new_case : exists d fi, to_data waves = Some d /\ usual_program (as_idata d) 2 fi slice_sort insertion_sort 1 2 5 3 /\ point_groups 2 5 (repeat pts3 2) /\
  forall i, i < 2 -> iv_history slice_sort insertion_sort (fi_w fi) (fi_h fi) (map MAdd (map (mut_point fi) (nth i (repeat pts3 2) []))) <> None.
Proof.
  destruct waves_function as (d & fi & E & Him). exists d, fi. split; [exact E|]. split; [|split; [exact pts3_groups|]].
  { split; [exact Him|]. split; [exact slice_sort_ok|]. split; [exact insertion_hull_sort|]. split; [lia|]. split; [discriminate|]. split; lia. }
  destruct (to_data_spec waves ltac:(cbn; lia) ltac:(cbn; lia) waves_conforming) as (d' & E' & W & H & _). rewrite E in E'. injection E' as <-. cbn [g_maxx g_maxy waves] in W, H.
  destruct Him as (_ & _ & _ & _ & _ & fuel & _ & Ef). destruct (new_fimg_fields _ _ _ _ Ef) as (W' & H' & _). change (i_w (as_idata d)) with (d_w d) in W'. change (i_h (as_idata d)) with (d_h d) in H'.
  intros i Hi K. assert (Ei : nth i (repeat pts3 2) [] = pts3) by (destruct i as [|[|i]]; [reflexivity|reflexivity|lia]). rewrite Ei in K.
  assert (M : map (mut_point fi) pts3 = map (fun p => create_point (nx p) (ny p) 6 6) pts3) by (apply map_ext; intros p; unfold mut_point; rewrite W', H', W, H; reflexivity).
  rewrite M, W', H', W, H in K. pose proof pts3_iv as T. rewrite K in T. discriminate T.
Qed.
