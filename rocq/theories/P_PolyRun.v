(** C65 for whole runs, and C68: runs of the algorithms over the polygon fitness
    functions. *)
From Coq Require Import ZArith List Bool Arith Lia Permutation.
From Flocq Require Import IEEE754.BinarySingleNaN.
From Verif Require Import GoNum M_Norm M_Slice M_Geom M_Image M_Raster S_Norm M_Delaunay S_Delaunay S_Remove M_Algo S_Algo M_Fitness S_Fitness S_Run S_Run2 M_Voronoi S_Voronoi M_Polygons S_Polygons S_PolyRun
  L_Insert L_Hist L_Reach L_Algo L_Algo2 L_Algo3 L_Algo4 L_Algo5 L_Fit L_Fit3 L_Sim L_Hold L_Tri L_SimH L_Poly L_VHold L_SliceSort P_Algo P_AlgoEx P_Fitness P_Remove P_Voronoi P_Run.
Import ListNotations.
Open Scope Z_scope.

Section PPar.
Context (im : fimg) (srt : sorter) (hsrt : point -> list point -> option (list point)) (cutoff n l pow2 : nat).
Hypothesis Hsrt : sorter_ok srt.
Hypothesis Hsize : usual_size (fi_w im) (fi_h im).
Hypothesis Hperm : forall p q q', hsrt p q = Some q' -> Permutation q q'.
Hypothesis Hhull : sorts_hulls hsrt.
Hypothesis Hl : Z.of_nat l <= 32765.
Hypothesis Hcut : cutoff <> 0%nat.
Notation F := (cmap pstrip). Notation ev := (vor_ev im srt hsrt). Notation ea := (pparallel im srt hsrt).
Notation holds := (vor_of im srt). Notation fit := (plain_pfitness im). Notation next := (next_vor im srt hsrt).
Notation Held := (held fit holds l). Notation GHeld := (gheld fit holds l).
Let Hnew := vor_new im srt hsrt l Hsize Hl.
Let Hkeep := vor_keep im srt hsrt.
Let Hmod := vor_mod im srt hsrt l Hsize Hperm Hhull Hl.
Lemma vor_fine pts d : okp l pts -> holds pts d -> small_polys d.
Proof. intros _ H. pose proof Hsize as (A & B & _). apply (framed_small im); [lia|lia|]. eapply vor_framed; eauto. Qed.
Lemma an_ivor : ivor. Proof. repeat constructor; exact 0. Qed.


Record psinv (c : core ppar) : Prop := {
  qi_ok : ppar_ok im (c_ev c); qi_hist : simple_history ev cutoff n l (F c); qi_held : Held n (F c);
  qi_nan : forall f, In f (c_fits c) -> is_nan f = false; qi_run : simple_run_on ev (new_keeper ivor n) cutoff n l (F c) }.
Lemma psimple_step_inv c mu s sw c' r : psinv c -> mutator_ok mu -> valid_schedule n s -> simple_step ea cutoff mu s sw c = Some (c', r) -> sorted (c_fits c') ->
  Forall (fun x => is_nan (snd x) = false) r -> psinv c' /\ forall i, (i < cutoff)%nat -> In (nth i (c_fits c) f0) (c_fits c').
Proof.
  intros [O H He N R] Hmu Hv E So Na.
  destruct (simple_history_shape ev cutoff n l (F c) Hcut H) as [Sh Sq].
  destruct (simple_step_simh next fit holds l Hnew Hkeep Hmod ea pstrip (ppar_ok im) small_polys vor_fine (pcalc_sim im srt hsrt) (pupd_sim im srt hsrt) (pprep_sim im srt hsrt) (pbase_sim im srt hsrt) (pswap_sim im srt hsrt)
     cutoff mu s sw n c c' r Hcut Sh Sq Hmu Hv He O E) as [O' E'].
  destruct (simple_held next fit holds l Hnew Hkeep Hmod cutoff mu s sw n (F c) (F c') r Hcut Sh Sq Hmu Hv He E') as (He' & K & Nr).
  split; [|intros i Hi; apply (K i Hi)]. constructor; [exact O'| |exact He'| |].
  - eapply sh_step; eauto.
  - intros f Hf. destruct (Nr f Hf) as (i & Hi). rewrite Forall_forall in Na. apply (Na _ Hi).
  - eapply so_step; eauto.
Qed.
Lemma psimple_run_inv c : simple_run_on ea (new_pparallel n pow2) cutoff n l c -> psinv c.
Proof.
  induction 1 as [groups s sw c r L Gf Hv E So Na|c mu s sw c' r _ IH Hmu Hv E So Na].
  - destruct (new_pparallel_ok im n pow2) as [O St].
    destruct (new_simple_simh next fit holds l Hnew Hkeep Hmod ea pstrip (ppar_ok im) small_polys vor_fine (pcalc_sim im srt hsrt) (pupd_sim im srt hsrt) (pprep_sim im srt hsrt) (pswap_sim im srt hsrt)
       an_ivor groups (new_pparallel n pow2) s sw n c r St L Gf Hv O E) as [O' E'].
    rewrite St in E'.
    destruct (new_simple_held next fit holds l Hnew Hkeep Hmod an_ivor groups s sw n (F c) r L Gf Hv E') as [He Nr].
    constructor; [exact O'| |exact He| |].
    + eapply sh_init; eauto.
    + intros f Hf. destruct (Nr f Hf) as (i & Hi). rewrite Forall_forall in Na. apply (Na _ Hi).
    + eapply so_new; eauto.
  - apply (psimple_step_inv c mu s sw c' r IH Hmu Hv E So Na).
Qed.

Record pginv (g : mgen ppar) : Prop := {
  ri_ok : ppar_ok im (c_ev (g_core g)); ri_hist : genetic_history ev cutoff n l (gmap pstrip g); ri_held : GHeld cutoff n (F (g_core g));
  ri_sorted : sorted (c_fits (g_core g)); ri_run : genetic_run_on ev (new_keeper ivor n) cutoff n l (gmap pstrip g) }.
Hypothesis H2c : (2 * cutoff <= n)%nat.
Lemma pgenetic_step_inv g mu s sw g' r : pginv g -> mutator_ok mu -> valid_schedule (n - cutoff) s -> genetic_step ea cutoff mu s sw g = Some (g', r) ->
  sorted (c_fits (g_core g')) -> Forall (fun x => flt f0 (snd x) = true) r -> pginv g' /\ forall i, (i < cutoff)%nat -> In (nth i (c_fits (g_core g)) f0) (c_fits (g_core g')).
Proof.
  intros [O H He S0 R] Hmu Hv E So Po.
  destruct (genetic_history_shape ev cutoff n l (gmap pstrip g) Hcut H) as (Sh & Sq & Lb & _).
  destruct (genetic_step_simh next fit holds l Hnew Hkeep Hmod ea pstrip (ppar_ok im) small_polys vor_fine (pcalc_sim im srt hsrt) (pupd_sim im srt hsrt) (pprep_sim im srt hsrt) (pbase_sim im srt hsrt) (pswap_sim im srt hsrt)
     cutoff mu s sw n g g' r Hcut H2c Sh Sq Hmu Hv Lb He S0 O E) as [O' E'].
  destruct (genetic_held next fit holds l Hnew Hkeep Hmod cutoff mu s sw n (F (g_core g)) (g_ben g) (gmap pstrip g') r Hcut H2c Sh Sq Hmu Hv Lb He S0 E' Po) as (He' & K).
  split; [|intros i Hi; apply (K i Hi)]. constructor; [exact O'| |exact He'|exact So|]; [eapply gh_step; eauto|eapply go_step; eauto].
Qed.
Lemma pgenetic_run_inv g : genetic_run_on ea (new_pparallel n pow2) cutoff n l g -> pginv g.
Proof.
  induction 1 as [groups s sw g r L Gf Hv E So Po|g mu s sw g' r _ IH Hmu Hv E So Po].
  - destruct (new_pparallel_ok im n pow2) as [O St].
    destruct (new_genetic_simh next fit holds l Hnew Hkeep Hmod ea pstrip (ppar_ok im) small_polys vor_fine (pcalc_sim im srt hsrt) (pupd_sim im srt hsrt) (pprep_sim im srt hsrt) (pswap_sim im srt hsrt)
       an_ivor cutoff groups (new_pparallel n pow2) s sw n g r St L Gf Hv O E) as [O' E'].
    rewrite St in E'.
    pose proof (new_genetic_held next fit holds l Hnew Hkeep Hmod an_ivor cutoff groups s sw n (gmap pstrip g) r Hcut L Gf Hv E' Po) as He.
    constructor; [exact O'| |exact He|exact So|]; [eapply gh_init; eauto|eapply go_new; eauto].
  - apply (pgenetic_step_inv g mu s sw g' r IH Hmu Hv E So Po).
Qed.
Lemma pstrip_own p i pts f : holdsat fit holds l (pstrip p) i pts f -> evaluated_cells im p i pts f.
Proof.
  intros (_ & id & d & A & B & C). rewrite b_at_pstrip in A. destruct (pat_pos p i) as [[id' t]|] eqn:Ea; [|discriminate]. cbn [option_map fst snd] in A.
  injection A as -> T B0. exists id, t, d. split; [exact Ea|]. split; [exact T|]. split; [exact B0|]. split; [|exact C]. eapply vor_shown; eauto.
Qed.
End PPar.

(** * C65 for whole runs: the caches change nothing *)
Theorem C65_simple_run : forall im srt hsrt cutoff n l pow2 c, sorter_ok srt -> usual_size (fi_w im) (fi_h im) -> hull_sort hsrt -> Z.of_nat l <= 32765 -> cutoff <> 0%nat ->
  simple_run_on (pparallel im srt hsrt) (new_pparallel n pow2) cutoff n l c ->
  exists b, simple_run_on (vor_ev im srt hsrt) (new_keeper ivor n) cutoff n l b /\ c_fits b = c_fits c /\ members b = members c /\ stats_best b = stats_best c.
Proof.
  intros im srt hsrt cutoff n l pow2 c SO Hs [Hp Hh] Hl Hc R. destruct (psimple_run_inv im srt hsrt cutoff n l pow2 SO Hs Hp Hh Hl Hc c R) as [_ _ _ _ R'].
  exists (cmap pstrip c). split; [exact R'|]. split; [reflexivity|]. split; reflexivity.
Qed.
Print Assumptions C65_simple_run.
Theorem C65_genetic_run : forall im srt hsrt cutoff n l pow2 g, sorter_ok srt -> usual_size (fi_w im) (fi_h im) -> hull_sort hsrt -> Z.of_nat l <= 32765 -> cutoff <> 0%nat -> (2 * cutoff <= n)%nat ->
  genetic_run_on (pparallel im srt hsrt) (new_pparallel n pow2) cutoff n l g ->
  exists b, genetic_run_on (vor_ev im srt hsrt) (new_keeper ivor n) cutoff n l b /\
    c_fits (g_core b) = c_fits (g_core g) /\ members (g_core b) = members (g_core g) /\ stats_best (g_core b) = stats_best (g_core g).
Proof.
  intros im srt hsrt cutoff n l pow2 g SO Hs [Hp Hh] Hl Hc H2 R. destruct (pgenetic_run_inv im srt hsrt cutoff n l pow2 SO Hs Hp Hh Hl Hc H2 g R) as [_ _ _ _ R'].
  exists (gmap pstrip g). split; [exact R'|]. split; [reflexivity|]. split; reflexivity.
Qed.
Print Assumptions C65_genetic_run.

(** * C68 *)
Theorem C68_simple : forall im srt hsrt cutoff n l pow2 c, sorter_ok srt -> usual_size (fi_w im) (fi_h im) -> hull_sort hsrt -> Z.of_nat l <= 32765 -> cutoff <> 0%nat ->
  simple_run_on (pparallel im srt hsrt) (new_pparallel n pow2) cutoff n l c ->
  forall i, (i < n)%nat -> evaluated_cells im (c_ev c) i (nth i (members c) []) (nth i (c_fits c) f0).
Proof.
  intros im srt hsrt cutoff n l pow2 c SO Hs [Hp Hh] Hl Hc R i Hi. destruct (psimple_run_inv im srt hsrt cutoff n l pow2 SO Hs Hp Hh Hl Hc c R) as [_ _ [_ He] _ _].
  specialize (He i Hi). eapply pstrip_own; [exact SO|exact Hs|exact He].
Qed.
Print Assumptions C68_simple.
(** In the modified genetic algorithm a member that was not evaluated has the fitness 0. *)
Theorem C68_genetic : forall im srt hsrt cutoff n l pow2 g, sorter_ok srt -> usual_size (fi_w im) (fi_h im) -> hull_sort hsrt -> Z.of_nat l <= 32765 ->
  cutoff <> 0%nat -> (2 * cutoff <= n)%nat -> genetic_run_on (pparallel im srt hsrt) (new_pparallel n pow2) cutoff n l g -> let c := g_core g in
  (forall i, (i < n)%nat -> (evaluated_cells im (c_ev c) i (nth i (members c) []) (nth i (c_fits c) f0) /\ flt f0 (nth i (c_fits c) f0) = true) \/ nth i (c_fits c) f0 = f0) /\
  (forall i, (i < cutoff)%nat -> evaluated_cells im (c_ev c) i (nth i (members c) []) (nth i (c_fits c) f0) /\ flt f0 (nth i (c_fits c) f0) = true).
Proof.
  intros im srt hsrt cutoff n l pow2 g SO Hs [Hp Hh] Hl Hc H2 R. cbv zeta. destruct (pgenetic_run_inv im srt hsrt cutoff n l pow2 SO Hs Hp Hh Hl Hc H2 g R) as [_ Hhi (_ & Hcnt & He) Hso _].
  assert (A : forall i, (i < n)%nat -> (evaluated_cells im (c_ev (g_core g)) i (nth i (members (g_core g)) []) (nth i (c_fits (g_core g)) f0) /\ flt f0 (nth i (c_fits (g_core g)) f0) = true) \/ nth i (c_fits (g_core g)) f0 = f0).
  { intros i Hi. destruct (He i Hi) as [[A B]|[A _]]; [left|right; exact A]. split; [|exact B]. eapply pstrip_own; [exact SO|exact Hs|exact A]. }
  split; [exact A|]. intros i Hi. destruct (A i ltac:(lia)) as [B|B]; [exact B|]. exfalso.
  destruct (genetic_history_shape (vor_ev im srt hsrt) cutoff n l _ Hc Hhi) as (Sh & _).
  apply (top_positive cutoff (c_fits (g_core g)) i Hso); try exact B; try exact Hi.
  - rewrite (sh_fits _ _ _ Sh : length (c_fits (g_core g)) = n). exact Hcnt.
  - rewrite (sh_fits _ _ _ Sh : length (c_fits (g_core g)) = n). exact H2.
Qed.
Print Assumptions C68_genetic.

(** The best fitness never gets worse. *)
Theorem C68_simple_best : forall im srt hsrt cutoff n l pow2 c mu s sw c' r, sorter_ok srt -> usual_size (fi_w im) (fi_h im) -> hull_sort hsrt -> Z.of_nat l <= 32765 -> cutoff <> 0%nat ->
  simple_run_on (pparallel im srt hsrt) (new_pparallel n pow2) cutoff n l c -> mutator_ok mu -> valid_schedule n s ->
  simple_step (pparallel im srt hsrt) cutoff mu s sw c = Some (c', r) -> sorted (c_fits c') -> Forall (fun x => is_nan (snd x) = false) r ->
  not_above (stats_best c) (stats_best c').
Proof.
  intros im srt hsrt cutoff n l pow2 c mu s sw c' r SO Hs [Hp Hh] Hl Hc R Hmu Hv E Sd Na. pose proof (psimple_run_inv im srt hsrt cutoff n l pow2 SO Hs Hp Hh Hl Hc c R) as I.
  destruct (psimple_step_inv im srt hsrt cutoff n l SO Hs Hp Hh Hl Hc c mu s sw c' r I Hmu Hv E Sd Na) as [I' K].
  destruct (simple_evaluated (vor_ev im srt hsrt) cutoff n l _ Hc (qi_hist _ _ _ _ _ _ _ I)) as (_ & _ & B1 & _).
  destruct (simple_evaluated (vor_ev im srt hsrt) cutoff n l _ Hc (qi_hist _ _ _ _ _ _ _ I')) as (_ & _ & B2 & _).
  unfold stats_best. change (c_bestfit c = nth 0 (c_fits c) f0) in B1. change (c_bestfit c' = nth 0 (c_fits c') f0) in B2. rewrite B1, B2.
  apply head_above; [exact Sd|apply K; lia|apply (qi_nan _ _ _ _ _ _ _ I')].
Qed.
Print Assumptions C68_simple_best.
Theorem C68_genetic_best : forall im srt hsrt cutoff n l pow2 g mu s sw g' r, sorter_ok srt -> usual_size (fi_w im) (fi_h im) -> hull_sort hsrt -> Z.of_nat l <= 32765 ->
  cutoff <> 0%nat -> (2 * cutoff <= n)%nat -> genetic_run_on (pparallel im srt hsrt) (new_pparallel n pow2) cutoff n l g -> mutator_ok mu -> valid_schedule (n - cutoff) s ->
  genetic_step (pparallel im srt hsrt) cutoff mu s sw g = Some (g', r) -> sorted (c_fits (g_core g')) -> Forall (fun x => flt f0 (snd x) = true) r ->
  not_above (stats_best (g_core g)) (stats_best (g_core g')).
Proof.
  intros im srt hsrt cutoff n l pow2 g mu s sw g' r SO Hs [Hp Hh] Hl Hc H2 R Hmu Hv E Sd Po. pose proof (pgenetic_run_inv im srt hsrt cutoff n l pow2 SO Hs Hp Hh Hl Hc H2 g R) as I.
  destruct (pgenetic_step_inv im srt hsrt cutoff n l SO Hs Hp Hh Hl Hc H2 g mu s sw g' r I Hmu Hv E Sd Po) as [I' K].
  destruct (genetic_evaluated (vor_ev im srt hsrt) cutoff n l _ Hc (ri_hist _ _ _ _ _ _ _ I)) as (_ & _ & B1 & _).
  destruct (genetic_evaluated (vor_ev im srt hsrt) cutoff n l _ Hc (ri_hist _ _ _ _ _ _ _ I')) as (_ & _ & B2 & _).
  unfold stats_best. change (c_bestfit (g_core g) = nth 0 (c_fits (g_core g)) f0) in B1. change (c_bestfit (g_core g') = nth 0 (c_fits (g_core g')) f0) in B2. rewrite B1, B2.
  apply head_above; [exact Sd|apply K; lia|]. intros x Hx. apply (In_nth _ _ f0) in Hx as (k & Hk & <-).
  destruct (genetic_history_shape (vor_ev im srt hsrt) cutoff n l _ Hc (ri_hist _ _ _ _ _ _ _ I')) as (Sh & _). rewrite (sh_fits _ _ _ Sh : length (c_fits (g_core g')) = n) in Hk.
  destruct (ri_held _ _ _ _ _ _ _ I') as (_ & _ & He). destruct (He k Hk) as [[_ A]|[A _]]; [apply (flt_nan _ _ A)|].
  change (nth k (c_fits (g_core g')) f0 = f0) in A. rewrite A. reflexivity.
Qed.
Print Assumptions C68_genetic_best.

(** * Concrete runs
    Five points on a 6x6 image; the mutation moves the last point. *)
Definition pts3 : list npoint := [q8 0 0; q8 8 0; q8 8 8; q8 0 8; q8 3 2].
Notation pev fi := (pparallel fi slice_sort insertion_sort).
Notation prun fi := (simple_run_on (pev fi) (new_pparallel 2 3) 1 2 5).
Definition ex_prun (gf : option fimg) : bool :=
  match gf with None => false | Some fi =>
  match new_simple (pev fi) (repeat pts3 2) (new_pparallel 2 3) ex_sched [] with None => false | Some (c0, r0) =>
  sortedb (c_fits c0) && no_nans r0 &&
  match simple_step (pev fi) 1 nudge ex_sched [(0, 1)%nat] c0 with None => false | Some (c1, r1) =>
  (fi_w fi =? 6) && (fi_h fi =? 6) && sortedb (c_fits c1) && no_nans r1 && flt (stats_best c0) (stats_best c1) end end end.
Lemma ex_prun_ok gf : ex_prun gf = true -> exists fi c0 c1, usual_size (fi_w fi) (fi_h fi) /\ prun fi c0 /\ prun fi c1 /\ flt (stats_best c0) (stats_best c1) = true.
Proof.
  unfold ex_prun. intros H. destruct gf as [fi|]; [|discriminate].
  destruct (new_simple (pev fi) (repeat pts3 2) (new_pparallel 2 3) ex_sched []) as [[c0 r0]|] eqn:E0; [|discriminate]. rewrite !andb_true_iff in H. destruct H as [[S0 N0] H].
  destruct (simple_step (pev fi) 1 nudge ex_sched [(0, 1)%nat] c0) as [[c1 r1]|] eqn:E1; [|discriminate]. rewrite !andb_true_iff in H. destruct H as [[[[W1 H1] S1] N1] B1].
  apply Z.eqb_eq in W1, H1.
  assert (R0 : prun fi c0).
  { eapply so_new; [| | |exact E0| |]; [reflexivity|apply (pts_ok pts3); vm_compute; reflexivity|apply ex_sched_ok|apply sortedb_ok, S0|apply no_nans_ok, N0]. }
  exists fi, c0, c1. rewrite W1, H1. split; [unfold usual_size; lia|]. split; [exact R0|]. split; [|exact B1].
  eapply so_step; [exact R0|apply nudge_ok|apply ex_sched_ok|exact E1|apply sortedb_ok, S1|apply no_nans_ok, N1].
Qed.
Lemma ex_prun_true : ex_prun grad_fi = true. Proof. vm_compute. reflexivity. Qed.
Example C68_simple_case : sorter_ok slice_sort /\ sorts_hulls insertion_sort /\
  exists fi c0 c1, usual_size (fi_w fi) (fi_h fi) /\ prun fi c0 /\ prun fi c1 /\ flt (stats_best c0) (stats_best c1) = true.
Proof. split; [exact slice_sort_ok|]. split; [exact insertion_sorts_hulls|]. exact (ex_prun_ok _ ex_prun_true). Qed.
Notation pgrun fi := (genetic_run_on (pev fi) (new_pparallel 3 3) 1 3 5).
Definition ex_pgrun (gf : option fimg) : bool :=
  match gf with None => false | Some fi =>
  match new_genetic (pev fi) 1 (repeat pts3 3) (new_pparallel 3 3) ex_sched [] with None => false | Some (g0, r0) =>
  sortedb (c_fits (g_core g0)) && all_pos r0 && feq (nth 2 (c_fits (g_core g0)) f1) f0 &&
  match genetic_step (pev fi) 1 nudge ex_sched [(0, 2)%nat] g0 with None => false | Some (g1, r1) =>
  (fi_w fi =? 6) && (fi_h fi =? 6) && sortedb (c_fits (g_core g1)) && all_pos r1 && (length r1 =? 3)%nat && flt (stats_best (g_core g0)) (stats_best (g_core g1)) end end end.
Lemma ex_pgrun_ok gf : ex_pgrun gf = true -> exists fi g0 g1, usual_size (fi_w fi) (fi_h fi) /\ pgrun fi g0 /\ pgrun fi g1 /\
  feq (nth 2 (c_fits (g_core g0)) f1) f0 = true /\ flt (stats_best (g_core g0)) (stats_best (g_core g1)) = true.
Proof.
  unfold ex_pgrun. intros H. destruct gf as [fi|]; [|discriminate].
  destruct (new_genetic (pev fi) 1 (repeat pts3 3) (new_pparallel 3 3) ex_sched []) as [[g0 r0]|] eqn:E0; [|discriminate]. rewrite !andb_true_iff in H. destruct H as [[[S0 N0] Z0] H].
  destruct (genetic_step (pev fi) 1 nudge ex_sched [(0, 2)%nat] g0) as [[g1 r1]|] eqn:E1; [|discriminate]. rewrite !andb_true_iff in H. destruct H as [[[[[W1 H1] S1] N1] L1] B1].
  apply Z.eqb_eq in W1, H1.
  assert (R0 : pgrun fi g0).
  { eapply go_new; [| | |exact E0| |]; [reflexivity|apply (pts_ok pts3); vm_compute; reflexivity|apply ex_sched_ok|apply sortedb_ok, S0|apply all_pos_ok, N0]. }
  exists fi, g0, g1. rewrite W1, H1. split; [unfold usual_size; lia|]. split; [exact R0|]. split; [|split; assumption].
  eapply go_step; [exact R0|apply nudge_ok|apply ex_sched_ok|exact E1|apply sortedb_ok, S1|apply all_pos_ok, N1].
Qed.
Lemma ex_pgrun_true : ex_pgrun grad_fi = true. Proof. vm_compute. reflexivity. Qed.
Example C68_genetic_case : exists fi g0 g1, usual_size (fi_w fi) (fi_h fi) /\ pgrun fi g0 /\ pgrun fi g1 /\
  feq (nth 2 (c_fits (g_core g0)) f1) f0 = true /\ flt (stats_best (g_core g0)) (stats_best (g_core g1)) = true.
Proof. exact (ex_pgrun_ok _ ex_pgrun_true). Qed.
