(** C70 and C71: the evaluators NewOne and NewMany. *)
From Coq Require Import ZArith List Bool Arith Lia Permutation.
From Flocq Require Import IEEE754.BinarySingleNaN.
From Verif Require Import GoNum M_Norm M_Slice M_Geom M_Image M_Raster S_Norm M_Delaunay S_Delaunay S_Remove M_Algo S_Algo M_Fitness S_Fitness M_Voronoi S_Voronoi M_Polygons S_Polygons S_PolyRun M_Generic S_Generic
  L_Algo L_Algo2 L_Algo3 L_Fit L_Hold L_SliceSort L_Generic L_Generic2 P_Algo P_AlgoEx P_Fitness P_Remove P_Run P_PolyRun.
Import ListNotations.

(** * C70: functions without a state *)
Lemma one_evaluated phi pts f : evaluated (one (pure phi)) pts f -> f = phi pts.
Proof. intros (e & i & log & e' & H). injection H as _ <-. reflexivity. Qed.
Lemma many_evaluated phi pts f : evaluated (many (pure phi)) pts f -> f = phi pts.
Proof. intros (e & i & log & e' & H). cbn [ev_calc many] in H. destruct (nth_error e i); [|discriminate]. injection H as _ <-. reflexivity. Qed.

(** Every member of a simple algorithm has the fitness of its points, and the best one
    never gets worse. *)
Theorem C70_simple : forall phi cutoff n l, cutoff <> 0%nat ->
  (forall c, simple_history (one (pure phi)) cutoff n l c -> forall i, (i < n)%nat -> nth i (c_fits c) f0 = phi (nth i (members c) [])) /\
  (forall c, simple_history (many (pure phi)) cutoff n l c -> forall i, (i < n)%nat -> nth i (c_fits c) f0 = phi (nth i (members c) [])).
Proof.
  intros phi cutoff n l Hc. split; intros c H i Hi; destruct (simple_evaluated _ cutoff n l c Hc H) as (_ & _ & _ & _ & K);
    [apply one_evaluated|apply many_evaluated]; apply K, Hi.
Qed.
Print Assumptions C70_simple.
(** In the modified genetic algorithm a member that was not evaluated has the fitness 0. *)
Theorem C70_genetic : forall phi cutoff n l, cutoff <> 0%nat ->
  (forall g, genetic_history (one (pure phi)) cutoff n l g -> let c := g_core g in forall i, (i < n)%nat -> nth i (c_fits c) f0 = phi (nth i (members c) []) \/ nth i (c_fits c) f0 = f0) /\
  (forall g, genetic_history (many (pure phi)) cutoff n l g -> let c := g_core g in forall i, (i < n)%nat -> nth i (c_fits c) f0 = phi (nth i (members c) []) \/ nth i (c_fits c) f0 = f0).
Proof.
  intros phi cutoff n l Hc. split; intros g H; cbv zeta; intros i Hi; destruct (genetic_evaluated _ cutoff n l g Hc H) as (_ & _ & _ & _ & K & _);
    (destruct (K i Hi) as [K'|K']; [left|right; exact K']); [apply one_evaluated|apply many_evaluated]; apply K'.
Qed.
Print Assumptions C70_genetic.
Theorem C70_best : forall phi cutoff n l mu sw, cutoff <> 0%nat -> mutator_ok mu ->
  (forall c s c' r, (forall pts, is_nan (phi pts) = false) -> valid_schedule n s -> simple_history (one (pure phi)) cutoff n l c ->
     simple_step (one (pure phi)) cutoff mu s sw c = Some (c', r) -> sorted (c_fits c') -> not_above (stats_best c) (stats_best c')) /\
  (forall c s c' r, (forall pts, is_nan (phi pts) = false) -> valid_schedule n s -> simple_history (many (pure phi)) cutoff n l c ->
     simple_step (many (pure phi)) cutoff mu s sw c = Some (c', r) -> sorted (c_fits c') -> not_above (stats_best c) (stats_best c')) /\
  (forall g s g' r, (forall pts, flt f0 (phi pts) = true) -> valid_schedule (n - cutoff) s -> genetic_history (one (pure phi)) cutoff n l g ->
     genetic_step (one (pure phi)) cutoff mu s sw g = Some (g', r) -> sorted (c_fits (g_core g')) -> not_above (stats_best (g_core g)) (stats_best (g_core g'))) /\
  (forall g s g' r, (forall pts, flt f0 (phi pts) = true) -> valid_schedule (n - cutoff) s -> genetic_history (many (pure phi)) cutoff n l g ->
     genetic_step (many (pure phi)) cutoff mu s sw g = Some (g', r) -> sorted (c_fits (g_core g')) -> not_above (stats_best (g_core g)) (stats_best (g_core g'))).
Proof.
  intros phi cutoff n l mu sw Hc Hmu. split; [|split; [|split]]; intros c s c' r Hp Hv H E So.
  - eapply (C32_simple_monotone (one (pure phi))); try eassumption; [intros p f Hf|intros p f Hf]; rewrite (one_evaluated _ _ _ Hf); auto.
  - eapply (C32_simple_monotone (many (pure phi))); try eassumption; [intros p f Hf|intros p f Hf]; rewrite (many_evaluated _ _ _ Hf); auto.
  - eapply (C33_genetic_monotone (one (pure phi))); try eassumption; [intros p f Hf|intros p f Hf]; rewrite (one_evaluated _ _ _ Hf); auto.
  - eapply (C33_genetic_monotone (many (pure phi))); try eassumption; [intros p f Hf|intros p f Hf]; rewrite (many_evaluated _ _ _ Hf); auto.
Qed.
Print Assumptions C70_best.

(** * C71: the functions of the package *)

(** A triangle function on its own returns the fitness of the first points for all points. *)
Theorem C71_triangles_frozen : forall im srt pts muts l fs, calls (tri_alone im srt) new_tfun ((pts, muts) :: l) = Some fs ->
  exists a f, tri_alone im srt new_tfun pts muts = Some (a, f) /\ fs = repeat f (S (length l)).
Proof.
  intros im srt pts muts l fs. apply (calls_new (tri_alone im srt) new_tfun (fun _ => True) (tri_stuck im)); [|apply tri_alone_old|exact I].
  intros p m a f _. apply tri_alone_new.
Qed.
Print Assumptions C71_triangles_frozen.
Theorem C71_polygons_frozen : forall im srt hsrt pts muts l fs, sorter_ok srt -> usual_size (fi_w im) (fi_h im) -> (Z.of_nat (length pts) <= 32765)%Z -> Forall pt_in_unit pts ->
  calls (poly_alone im srt hsrt) new_pfun ((pts, muts) :: l) = Some fs ->
  exists a f, poly_alone im srt hsrt new_pfun pts muts = Some (a, f) /\ fs = repeat f (S (length l)).
Proof.
  intros im srt hsrt pts muts l fs SO Hs Hl Hu. apply (calls_new (poly_alone im srt hsrt) new_pfun (okp (length pts)) (poly_stuck im)); [|apply poly_alone_old|].
  - intros p m a f. apply poly_alone_new; assumption.
  - split; [reflexivity|exact Hu].
Qed.
Print Assumptions C71_polygons_frozen.

Lemma best_of (fs gs : list f64) : Permutation fs gs -> fs <> [] -> sorted fs -> sorted gs -> (forall f, In f fs -> is_nan f = false) ->
  not_above (nth 0 fs f0) (nth 0 gs f0).
Proof.
  intros P Hn Sf Sg N. assert (L : (0 < length fs)%nat) by (destruct fs; [congruence|cbn; lia]). pose proof (Permutation_length P) as Lg.
  assert (I : In (nth 0 fs f0) gs) by (apply (Permutation_in _ P), nth_In, L). apply (In_nth _ _ f0) in I as (k & Hk & Ek).
  split; [apply N, nth_In, L|]. split; [apply N, (Permutation_in _ (Permutation_sym P)), nth_In; lia|].
  rewrite <- Ek. destruct k as [|k]; [|apply (Sg 0%nat (S k)); lia].
  assert (Q : forall x : f64, is_nan x = false -> flt x x = false).
  { intros x Hx. destruct (not_above_refl x Hx) as (_ & _ & K). exact K. }
  apply Q. rewrite Ek. apply N, nth_In, L.
Qed.

(** Over NewMany the fitnesses never change, whatever happens to the points. *)
Section NoProgress.
Context {A : Type} (calc : ffun A) (a0 : A) (good : list npoint -> Prop) (St : A -> f64 -> Prop) (cutoff n l : nat).
Hypothesis Hnew : forall pts muts a f, good pts -> calc a0 pts muts = Some (a, f) -> St a f.
Hypothesis Hold : forall a f pts muts a' f', St a f -> calc a pts muts = Some (a', f') -> f' = f /\ St a' f.
Hypothesis Hcut : cutoff <> 0%nat.
Hypothesis Hgood : forall pts, length pts = l -> Forall pt_in_unit pts -> good pts.
Lemma run_sorted c : simple_run_on (many calc) (new_many a0 n) cutoff n l c -> simple_history (many calc) cutoff n l c.
Proof. induction 1; [eapply sh_init; eassumption|eapply sh_step; eassumption]. Qed.
Lemma run_no_nan c : simple_run_on (many calc) (new_many a0 n) cutoff n l c -> forall f, In f (c_fits c) -> is_nan f = false.
Proof.
  intros R f If. pose proof (run_stuck calc a0 good St Hnew Hold cutoff n l Hcut Hgood) as Rs.
  destruct R as [groups s sw c r Ln Hf Hv E So Na|c mu s sw c' r R Hmu Hv E So Na].
  - pose proof Hv as Hv'. rewrite <- Ln in Hv'. destruct (new_simple_spec (many calc) groups _ s sw c r l Hf Hv' E) as (S1 & _ & _ & _ & _ & _ & fs & Lf & P & K).
    apply perm_snd in P; [|unfold members; rewrite map_length, (sh_pop _ _ _ S1), (sh_fits _ _ _ S1); reflexivity|lia].
    apply (Permutation_in _ P), (In_nth _ _ f0) in If as (k & Hk & <-). destruct (K k ltac:(lia)) as [K1 _]. apply result_In in K1. rewrite Forall_forall in Na. exact (Na _ K1).
  - destruct (Rs c R) as (Sh & Sq & _). destruct (simple_step_spec (many calc) cutoff mu s sw n l c c' r Hcut Sh Sq Hmu Hv E) as (S1 & _ & _ & _ & _ & _ & _ & _ & fs & Lf & P & K).
    apply perm_snd in P; [|unfold members; rewrite map_length, (sh_pop _ _ _ S1), (sh_fits _ _ _ S1); reflexivity|rewrite map_length, seq_length; lia].
    apply (Permutation_in _ P), (In_nth _ _ f0) in If as (k & Hk & <-). destruct (K k ltac:(lia)) as [K1 _]. apply result_In in K1. rewrite Forall_forall in Na. exact (Na _ K1).
Qed.
Lemma no_progress c mu s sw c' r : simple_run_on (many calc) (new_many a0 n) cutoff n l c -> mutator_ok mu -> valid_schedule n s ->
  simple_step (many calc) cutoff mu s sw c = Some (c', r) -> sorted (c_fits c') ->
  Permutation (c_fits c') (c_fits c) /\ not_above (stats_best c) (stats_best c') /\ not_above (stats_best c') (stats_best c).
Proof.
  intros R Hmu Hv E So. destruct (run_stuck calc a0 good St Hnew Hold cutoff n l Hcut Hgood c R) as (Sh & Sq & g & Lg & Fg & K).
  pose proof (step_stuck calc a0 good St Hnew Hold cutoff n l Hcut _ c mu s sw c' r Sh Sq K Hmu Hv E) as K'. destruct K as (_ & _ & K). destruct K' as (_ & _ & K').
  assert (P : Permutation (c_fits c') (c_fits c)) by (rewrite K', K; reflexivity). split; [exact P|].
  pose proof (run_sorted c R) as H. destruct (simple_evaluated _ cutoff n l c Hcut H) as (Hn & _ & B & So0 & _).
  destruct (simple_evaluated _ cutoff n l c' Hcut (sh_step _ cutoff n l c mu s sw c' r H Hmu Hv E So)) as (_ & _ & B' & _).
  pose proof (run_no_nan c R) as N. unfold stats_best. rewrite B, B'.
  assert (Ne : c_fits c <> []) by (intros Z; pose proof (sh_fits _ _ _ Sh) as L; rewrite Z in L; cbn in L; lia).
  split; apply best_of; try assumption; [apply Permutation_sym, P|intros Z; rewrite Z in P; apply Permutation_nil in P; congruence|].
  intros f I. apply N, (Permutation_in _ P), I.
Qed.
End NoProgress.

Theorem C71_triangles_no_progress : forall im srt cutoff n l c mu s sw c' r, cutoff <> 0%nat ->
  simple_run_on (many (tri_alone im srt)) (new_many new_tfun n) cutoff n l c -> mutator_ok mu -> valid_schedule n s ->
  simple_step (many (tri_alone im srt)) cutoff mu s sw c = Some (c', r) -> sorted (c_fits c') ->
  Permutation (c_fits c') (c_fits c) /\ not_above (stats_best c) (stats_best c') /\ not_above (stats_best c') (stats_best c).
Proof.
  intros im srt cutoff n l c mu s sw c' r Hc. apply (no_progress (tri_alone im srt) new_tfun (fun _ => True) (tri_stuck im) cutoff n l); [|apply tri_alone_old|exact Hc|auto].
  intros p m a f _. apply tri_alone_new.
Qed.
Print Assumptions C71_triangles_no_progress.
Theorem C71_polygons_no_progress : forall im srt hsrt cutoff n l c mu s sw c' r, sorter_ok srt -> usual_size (fi_w im) (fi_h im) -> (Z.of_nat l <= 32765)%Z -> cutoff <> 0%nat ->
  simple_run_on (many (poly_alone im srt hsrt)) (new_many new_pfun n) cutoff n l c -> mutator_ok mu -> valid_schedule n s ->
  simple_step (many (poly_alone im srt hsrt)) cutoff mu s sw c = Some (c', r) -> sorted (c_fits c') ->
  Permutation (c_fits c') (c_fits c) /\ not_above (stats_best c) (stats_best c') /\ not_above (stats_best c') (stats_best c).
Proof.
  intros im srt hsrt cutoff n l c mu s sw c' r SO Hs Hl Hc.
  apply (no_progress (poly_alone im srt hsrt) new_pfun (okp l) (poly_stuck im) cutoff n l); [|apply poly_alone_old|exact Hc|].
  - intros p m a f. apply poly_alone_new; assumption.
  - intros p A B. split; assumption.
Qed.
Print Assumptions C71_polygons_no_progress.

(** * Concrete runs *)
Notation tev fi := (many (tri_alone fi insertion_sort)).
Notation trun fi := (simple_run_on (tev fi) (new_many new_tfun 2) 1 2 5).
Definition ex_trun (gf : option fimg) : bool :=
  match gf with None => false | Some fi =>
  match new_simple (tev fi) (repeat pts0 2) (new_many new_tfun 2) ex_sched [] with None => false | Some (c0, r0) =>
  sortedb (c_fits c0) && no_nans r0 &&
  match simple_step (tev fi) 1 nudge ex_sched [] c0 with None => false | Some (c1, r1) =>
  sortedb (c_fits c1) && no_nans r1 &&
  match own_fitness (tri_alone fi insertion_sort) new_tfun (nth 1 (members c1) []) with None => false | Some f => flt (stats_best c1) f && flt (nth 1 (c_fits c1) f0) f end end end end.
Lemma ex_trun_ok gf : ex_trun gf = true -> exists fi c0 c1 f, trun fi c0 /\ trun fi c1 /\
  own_fitness (tri_alone fi insertion_sort) new_tfun (nth 1 (members c1) []) = Some f /\ flt (stats_best c1) f = true /\ flt (nth 1 (c_fits c1) f0) f = true.
Proof.
  unfold ex_trun. intros H. destruct gf as [fi|]; [|discriminate].
  destruct (new_simple (tev fi) (repeat pts0 2) (new_many new_tfun 2) ex_sched []) as [[c0 r0]|] eqn:E0; [|discriminate]. rewrite !andb_true_iff in H. destruct H as [[S0 N0] H].
  destruct (simple_step (tev fi) 1 nudge ex_sched [] c0) as [[c1 r1]|] eqn:E1; [|discriminate]. rewrite !andb_true_iff in H. destruct H as [[S1 N1] H].
  destruct (own_fitness _ _ _) as [f|] eqn:Ef; [|discriminate]. apply andb_true_iff in H as [B1 B2].
  assert (R0 : trun fi c0).
  { eapply so_new; [| | |exact E0| |]; [reflexivity|apply (pts_ok pts0); vm_compute; reflexivity|apply ex_sched_ok|apply sortedb_ok, S0|apply no_nans_ok, N0]. }
  exists fi, c0, c1, f. split; [exact R0|]. split; [|auto].
  eapply so_step; [exact R0|apply nudge_ok|apply ex_sched_ok|exact E1|apply sortedb_ok, S1|apply no_nans_ok, N1].
Qed.
Lemma ex_trun_true : ex_trun grad_fi = true. Proof. vm_compute. reflexivity. Qed.

(** A run over NewMany with triangle functions in which a member has a fitness that is not
    the one of its points, and a better member is not noticed. *)
Theorem C71_many_refuted : exists fi cutoff n l c i f, cutoff <> 0%nat /\ (i < n)%nat /\
  simple_run_on (many (tri_alone fi insertion_sort)) (new_many new_tfun n) cutoff n l c /\
  own_fitness (tri_alone fi insertion_sort) new_tfun (nth i (members c) []) = Some f /\
  flt (nth i (c_fits c) f0) f = true /\ flt (stats_best c) f = true.
Proof.
  destruct (ex_trun_ok _ ex_trun_true) as (fi & c0 & c1 & f & _ & R & E & B1 & B2). exists fi, 1%nat, 2%nat, 5%nat, c1, 1%nat, f.
  split; [discriminate|]. split; [lia|]. auto.
Qed.
Print Assumptions C71_many_refuted.

(** A run over NewOne: the fitness is the height of the last point above the bottom, which the mutation moves. *)
Definition height (pts : list npoint) : f64 := fsub f1 (ny (nth 4 pts (NP f0 f0))).
Notation orun := (simple_history (one (pure height)) 1 2 5).
Definition ex_orun : bool :=
  match new_simple (one (pure height)) (repeat pts0 2) tt ex_sched [] with None => false | Some (c0, r0) =>
  sortedb (c_fits c0) &&
  match simple_step (one (pure height)) 1 nudge ex_sched [(0, 1)%nat] c0 with None => false | Some (c1, r1) =>
  sortedb (c_fits c1) && negb (feq (stats_best c0) (stats_best c1)) end end.
Lemma ex_orun_true : ex_orun = true. Proof. vm_compute. reflexivity. Qed.
Example C70_case : exists c0 c1, orun c0 /\ orun c1 /\ feq (stats_best c0) (stats_best c1) = false.
Proof.
  pose proof ex_orun_true as H. unfold ex_orun in H.
  destruct (new_simple (one (pure height)) (repeat pts0 2) tt ex_sched []) as [[c0 r0]|] eqn:E0; [|discriminate]. rewrite !andb_true_iff in H. destruct H as [S0 H].
  destruct (simple_step (one (pure height)) 1 nudge ex_sched [(0, 1)%nat] c0) as [[c1 r1]|] eqn:E1; [|discriminate]. rewrite !andb_true_iff, negb_true_iff in H. destruct H as [S1 B].
  assert (R0 : orun c0).
  { eapply sh_init; [| | |exact E0|]; [reflexivity|apply (pts_ok pts0); vm_compute; reflexivity|apply ex_sched_ok|apply sortedb_ok, S0]. }
  exists c0, c1. split; [exact R0|]. split; [|exact B]. eapply sh_step; [exact R0|apply nudge_ok|apply ex_sched_ok|exact E1|apply sortedb_ok, S1].
Qed.
