(** The states in which the workers are started satisfy what L_PFine asks for (polygons). *)
From Coq Require Import ZArith List Bool Arith Lia Permutation.
From Verif Require Import GoNum M_Norm M_Slice M_Geom M_Image S_Image M_Raster S_Norm M_Delaunay S_Delaunay S_Remove M_Algo S_Algo M_Fitness S_Fitness S_Run S_Run2 M_Voronoi S_Voronoi M_Polygons S_Polygons S_PolyRun S_PolyProg S_MemRun S_Sched M_PFine S_PFine.
From Verif Require Import L_PMap L_Slice L_Algo L_Algo2 L_Algo3 L_Algo4 L_Algo5 L_Hold L_Fit L_Fit3 L_Sim L_Fwd L_SimH L_Poly L_Poly2 L_VHold L_PFwd L_MemRun2 L_Sched L_PRace L_Fine3 L_PFine P_Algo P_Fitness P_Run P_Run2 P_PolyRun P_PolySum P_PolyProg P_Sched.
Import ListNotations.
Local Open Scope nat_scope.

Lemma pstrip_nth p id : nth_error (b_funs (pstrip p)) id = option_map (fun f => (pf_tri f, pf_base f)) (nth_error (pp_funs p) id).
Proof. unfold pstrip. cbn [b_funs]. apply nth_error_map. Qed.
Lemma pstart_of n lim p : lim <= n -> L_PRace.ready n lim p -> calm (pstrip p) -> vfit_start lim p.
Proof.
  intros L [W T] [Nd C]. constructor; [apply W|apply W|apply W|]. intros i Hi. destruct (pw_at _ _ W i ltac:(lia)) as (id & f & A). pose proof (T i Hi) as Tg. unfold tag in Tg. rewrite A in Tg. cbn [option_map snd] in Tg. apply pat_pos_In in A as (A1 & A2 & _).
  exists id, f. split; [exact A1|]. split; [exact A2|]. split; [destruct Tg as [[= ->]|[= ->]]; auto|]. intros b Eb. destruct (C id (pf_tri f) b) as (d & Ed).
  - rewrite pstrip_nth, A2. cbn [option_map]. rewrite Eb. reflexivity.
  - rewrite pstrip_nth in Ed. destruct (nth_error (pp_funs p) b) as [g|] eqn:Eg; [|discriminate]. cbn [option_map] in Ed. injection Ed as E1 E2. split; [intros ->; congruence|]. exists g, d. auto.
Qed.

Section Polygons.
Context (im : idata) (bs : Z) (fi : fimg) (srt : sorter) (hsrt : point -> list point -> option (list point)) (cutoff n l pow2 : nat).
Hypothesis (Him : image_function im bs fi) (SO : sorter_ok srt) (Hh : hull_sort hsrt) (Hl : (Z.of_nat l <= 32765)%Z) (Hcut : cutoff <> 0) (Hk : 1 <= pow2 <= 62).
Notation F := (cmap pstrip). Notation ea := (pparallel fi srt hsrt). Notation N := (Z.of_nat (Nat.pow 2 pow2)).
Notation next := (next_vor fi srt hsrt). Notation fit := (fit2 fi). Notation ev := (keep_ev next fit). Notation holds := (vor_of fi srt).
Notation HN := (pow_range pow2 Hk). Notation Usz := (im_usual im bs fi Him).
Notation Vnew := (vor_new fi srt hsrt l Usz Hl). Notation Vkeep := (vor_keep fi srt hsrt). Notation Vmod := (vor_mod fi srt hsrt l Usz (proj1 Hh) (proj2 Hh) Hl).
Notation Fine := (vor_fine fi srt cutoff l SO Usz Hcut). Notation Live := (alive (qlive fi N) n).
Notation Qc := (qlive_calc fi srt hsrt N HN). Notation Qu := (qlive_upd fi srt hsrt N HN). Notation Qp := (qlive_prep fi srt hsrt N HN). Notation Qb := (qlive_base fi srt hsrt N HN). Notation Qs := (qlive_swap fi srt hsrt N n HN).
Notation Cs := (calc2_sim fi srt hsrt). Notation Us := (pupd_sim fi srt hsrt). Notation Ps := (pprep_sim fi srt hsrt). Notation Bs := (pbase_sim fi srt hsrt). Notation Ss := (pswap_sim fi srt hsrt).

(** When the workers are started. *)
Record vstarted (lim : nat) (c : core ppar) : Prop := {
  vd_ready : exists nb bp bd, L_SimH.ready holds l n lim nb bp bd (F c); vd_live : Live c; vd_calm : calm (pstrip (c_ev c)); vd_race : L_PRace.ready n lim (c_ev c); vd_fit : vfit_start lim (c_ev c);
  vd_pop : length (c_pop c) = n; vd_muts : length (c_muts c) = n }.

Lemma init_started lim groups c : lim <= n -> point_groups n l groups -> init_core groups (new_pparallel n pow2) = Some c -> vstarted lim c.
Proof.
  intros L [Ln Gf] E. destruct (new_pparallel_ok fi n pow2) as [O St]. pose proof (init_ev _ _ _ E) as Ee. assert (C : calm (pstrip (c_ev c))) by (rewrite Ee, St; apply (rest_calm _ (new_rest ivor n))).
  assert (Rd : L_PRace.ready n lim (c_ev c)).
  { rewrite Ee. destruct (new_parallel_wf n pow2) as [W T]. split; [exact W|]. intros i Hi. left. apply T. lia. }
  destruct (sim_init pstrip (ppar_ok fi) _ _ _ O E) as [_ E1].
  constructor; [|unfold alive; rewrite Ee; apply new_qlive|exact C|exact Rd|apply (pstart_of n lim); assumption| |].
  - exists 0, (fun _ => []), (fun _ => an_ivor). exact (init_ready holds l pstrip an_ivor groups (new_pparallel n pow2) n c lim L St E1 Ln Gf).
  - unfold init_core in E. destruct groups as [|g gs]; [discriminate|]. injection E as <-. cbn [c_pop length]. rewrite ?seq_length. exact Ln.
  - unfold init_core in E. destruct groups as [|g gs]; [discriminate|]. injection E as <-. cbn [c_muts length]. rewrite ?repeat_length. exact Ln.
Qed.
Lemma generation_started lim mu c c1 : lim <= n -> shape n l (F c) -> in_square (F c) -> mutator_ok mu -> wf n (c_ev (F c)) ->
  (forall i, i < cutoff -> i < n -> holdsat fit holds l (c_ev (F c)) i (nth i (members (F c)) []) (nth i (c_fits (F c)) f0)) -> (forall i, i < n -> idle holds l (c_ev (F c)) i) ->
  at_rest (c_ev (F c)) -> Live c -> L_PRace.ready n lim (c_ev c) -> new_generation ea mu cutoff lim c = Some c1 -> vstarted lim c1.
Proof.
  intros L Sh Sq Hmu W Htop Hidl R Li Rd E. destruct (sim_gen ea ev pstrip (ppar_ok fi) Bs mu cutoff lim c c1 (proj1 Li) E) as [O1 E1].
  destruct (fwd_gen ea ev pstrip (qlive fi N) n Qb mu cutoff lim c (F c1) Li E1) as (c2 & E2 & _ & L1). rewrite E in E2. injection E2 as <-.
  pose proof (generation_fresh next fit cutoff lim mu (F c) (F c1) R E1) as Fr. destruct (fresh_calm _ _ _ Fr) as [C _].
  assert (Rd1 : L_PRace.ready n lim (c_ev c1)).
  { destruct Rd as [Wp T]. destruct (generation_same fi srt hsrt n _ _ _ _ _ E) as [G _]. destruct (G Wp) as (W1 & C1 & _ & _ & T1). split; [exact W1|]. intros i Hi. rewrite C1, T1 by lia. apply T, Hi. }
  pose proof (new_generation_shape ev mu cutoff lim n l (F c) (F c1) Hcut Sh Sq Hmu E1) as (G1 & G2 & G3 & G4 & G5 & G6 & G7 & G8 & _).
  destruct (generation_pend next fit holds l mu cutoff lim n (F c) (F c1) Hcut Sh Sq Hmu W Htop Hidl E1 (fun i => nth i (members (F c)) []) (fun _ => eq_refl)) as (bd & W1 & B1 & F1 & P1 & M1 & _).
  constructor; [|exact L1|exact C|exact Rd1|apply (pstart_of n lim); assumption|exact (sh_pop _ _ _ G1)|exact (sh_muts _ _ _ G1)].
  exists cutoff, (fun i => nth i (members (F c)) []), bd. split; [exact G8|]. split; [exact L|]. split; [exact W1|]. split; [exact B1|]. split; [exact P1|]. intros i Hi _. apply M1, Hi.
Qed.
Lemma polygon_started c : polygon_start fi srt hsrt cutoff n l pow2 c -> vstarted n c.
Proof.
  intros [groups c1 G E|c0 mu c1 R Hmu E]; [apply (init_started n groups c1 (le_n n) G E)|].
  destruct (pprogram_inv im bs fi srt hsrt cutoff n l pow2 Him SO Hh Hl Hcut Hk c0 R) as [Li H [W He] _ _]. destruct (simple_history_shape ev cutoff n l (F c0) Hcut H) as [Sh Sq].
  destruct (poly_rest im bs fi srt hsrt cutoff n l pow2 Him SO Hh Hl Hcut Hk c0 R) as [A _].
  apply (generation_started n mu c0 c1 (le_n n) Sh Sq Hmu W (fun i _ Hi => He i Hi) (fun i Hi => holdsat_idle _ _ _ _ _ _ _ (He i Hi)) A Li (steps_ready fi srt hsrt cutoff n l pow2 c0 R) E).
Qed.

(** What the coarse executions do. *)
Section Acts.
Context (lim : nat) (c : core ppar).
Hypothesis (Hlim : lim <= n) (Hs : vstarted lim c).
Lemma pcoarse_any s s' c1 r1 : valid_schedule lim s -> valid_schedule lim s' -> do_acts ea s (c, []) = Some (c1, r1) ->
  exists c2 r2, do_acts ea s' (c, []) = Some (c2, r2) /\ same_algo c1 c2 /\ pstrip (c_ev c1) = pstrip (c_ev c2) /\ Permutation r1 r2.
Proof.
  intros V V' E. destruct Hs as [(nb & bp & bd & Rd) Li C _ Fi P M].
  destruct (acts_simh next fit holds l Vnew Vkeep Vmod ea pstrip (ppar_ok fi) small_polys Fine Cs Us Ps n lim nb bp bd c s c1 r1 Rd V (proj1 Li) E) as [_ E1].
  destruct (acts_any next fit Vkeep lim s s' (cmap pstrip c) (cmap pstrip c1) r1 C V V' E1) as (r2 & E2 & Pm).
  destruct (fwd_acts ea ev pstrip (qlive fi N) Qc Qu Qp s' c [] _ r2 (clean n) (clean n) Li (dirts_schedule lim n s' Hlim V') E2) as (c2 & E3 & E4 & _).
  exists c2, r2. split; [exact E3|]. destruct (cmap_same pstrip c1 c2 (eq_sym E4)) as [X Y]. auto.
Qed.
End Acts.

Hypothesis H2c : 2 * cutoff <= n.
Lemma pgenetic_rest g : genetic_run_on ea (new_pparallel n pow2) cutoff n l g -> L_Sched.ready cutoff n (gmap pstrip g).
Proof.
  induction 1 as [groups s sw g r Ln Gf Hv E So Po|g mu s sw g' r R IH Hmu Hv E So Po].
  - destruct (new_pparallel_ok fi n pow2) as [O St].
    destruct (new_genetic_simh next fit holds l Vnew Vkeep Vmod ea pstrip (ppar_ok fi) small_polys Fine Cs Us Ps Ss an_ivor cutoff groups (new_pparallel n pow2) s sw n g r St Ln Gf Hv O E) as [_ E'].
    rewrite St in E'. exact (new_genetic_ready next fit Vkeep cutoff n groups _ s sw _ _ Ln (new_rest ivor n) Hv E').
  - destruct (pg_run_inv im bs fi srt hsrt cutoff n l pow2 Him SO Hh Hl Hcut Hk H2c g R) as [Li H He S0]. destruct (genetic_history_shape ev cutoff n l (gmap pstrip g) Hcut H) as (Sh & Sq & Lb & _).
    destruct (genetic_step_simh next fit holds l Vnew Vkeep Vmod ea pstrip (ppar_ok fi) small_polys Fine Cs Us Ps Bs Ss cutoff mu s sw n g g' r Hcut H2c Sh Sq Hmu Hv Lb He S0 (proj1 Li) E) as [_ E'].
    exact (genetic_ready next fit Vkeep cutoff n mu s sw _ _ _ Hcut H2c Hv IH E').
Qed.
Lemma pgenetic_race g : genetic_run_on ea (new_pparallel n pow2) cutoff n l g -> L_PRace.ready n (n - cutoff) (c_ev (g_core g)).
Proof.
  intros R. destruct (pg_run_inv im bs fi srt hsrt cutoff n l pow2 Him SO Hh Hl Hcut Hk H2c g R) as [_ _ (_ & Hcnt & _) So].
  assert (G : gready n (g_core g)); [|apply gready_ready; [exact G|exact So|exact Hcnt]]. clear Hcnt So.
  induction R as [groups s sw g r L Gf Hv E So Po|g mu s sw g' r R IH Hmu Hv E So Po].
  - eapply (new_genetic_gready fi srt hsrt n cutoff groups pow2 s sw g r); [lia|exact L|exact Hv|exact E].
  - destruct (pg_run_inv im bs fi srt hsrt cutoff n l pow2 Him SO Hh Hl Hcut Hk H2c g R) as [_ Hi (_ & Hcnt & _) So0].
    destruct (genetic_history_shape ev cutoff n l _ Hcut Hi) as (Sh & _).
    apply (genetic_step_gready fi srt hsrt n cutoff mu s sw g g' r); [lia|exact (sh_pop _ _ _ Sh)|exact Hv|exact (sh_fits _ _ _ Sh)| |exact E]. apply gready_ready; [exact IH|exact So0|exact Hcnt].
Qed.
Lemma polygon_gstarted c : polygon_gstart fi srt hsrt cutoff n l pow2 c -> vstarted (n - cutoff) c.
Proof.
  intros [groups c1 G E|g0 mu c1 R Hmu E]; [apply (init_started (n - cutoff) groups c1 ltac:(lia) G E)|].
  destruct (pg_run_inv im bs fi srt hsrt cutoff n l pow2 Him SO Hh Hl Hcut Hk H2c g0 R) as [Li H (W & Hcnt & Hkk) S0]. destruct (genetic_history_shape ev cutoff n l (gmap pstrip g0) Hcut H) as (Sh & Sq & _).
  destruct (pgenetic_rest g0 R) as [A _ _ _]. apply (generation_started (n - cutoff) mu (g_core g0) c1 ltac:(lia) Sh Sq Hmu W); [| |exact A|exact Li|exact (pgenetic_race g0 R)|exact E].
  - intros i Hi Hn. destruct (Hkk i Hn) as [[X _]|[X _]]; [exact X|]. exfalso. pose proof (sh_fits _ _ _ Sh : length (c_fits (F (g_core g0))) = n) as Lf. revert X. apply (top_positive cutoff (c_fits (F (g_core g0))) i S0); [rewrite Lf; exact Hcnt|rewrite Lf; exact H2c|exact Hi].
  - intros i Hi. destruct (Hkk i Hi) as [[X _]|[_ X]]; [eapply holdsat_idle, X|exact X].
Qed.
End Polygons.
