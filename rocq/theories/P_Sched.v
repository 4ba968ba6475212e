(** C88: what simple does is decided by the mutator and the sort, not by the scheduling of the
    workers; for modifiedGenetic this holds of the members and their fitnesses when the workers
    have finished, but not of what is made of them. *)
From Coq Require Import ZArith List Bool Lia Arith Permutation.
From Flocq Require Import IEEE754.BinarySingleNaN.
From Verif Require Import GoNum M_Norm M_Slice M_Geom S_Geom M_Image S_Image M_Raster S_Raster S_Norm M_Delaunay S_Delaunay S_Remove M_Algo S_Algo M_Fitness S_Fitness S_Run S_Run2 M_Voronoi S_Voronoi M_Polygons S_Polygons S_PolyRun S_PolyProg S_MemRun S_Sched.
From Verif Require Import L_Slice L_Algo L_Algo2 L_Algo3 L_Algo4 L_Algo5 L_Hold L_Fit L_Sim L_Fwd L_SimH L_Poly L_Poly2 L_VHold L_PFwd L_MemRun2 L_Sched P_Delaunay P_Remove P_Algo P_AlgoEx P_AlgoEx2 P_Fitness P_Run P_Run2 P_PolyRun P_PolyProg.
Import ListNotations.
Local Open Scope nat_scope.

Lemma tri_keep im srt d pts log : next_tri im srt (Some d) None pts log = Some d.
Proof. reflexivity. Qed.
Lemma new_rest (T : Type) n : at_rest (new_keeper T n).
Proof.
  split; [apply seq_NoDup|]. cbn [new_keeper b_funs]. intros id tri b E. apply nth_error_In, repeat_spec in E. congruence.
Qed.

Section Triangles.
Context (im : fimg) (srt : point -> list point -> option (list point)) (pow2 n : nat).
Hypothesis Hk : 1 <= pow2 <= 62.
Notation ea := (parallel im srt). Notation eb := (bare_ev im srt). Notation N := (Z.of_nat (Nat.pow 2 pow2)). Notation F := (cmap strip).
Notation HN := (pow_range pow2 Hk). Notation Live := (alive (plive im N) n).
Lemma back_step cutoff mu s sw c k r : valid_schedule n s -> Live c -> simple_step eb cutoff mu s sw (F c) = Some (k, r) -> exists c', simple_step ea cutoff mu s sw c = Some (c', r) /\ F c' = k /\ Live c'.
Proof. apply (fwd_simple_step ea eb strip (plive im N) n (plive_calc im srt N HN) (plive_upd im srt N HN) (plive_prep im srt N HN) (plive_base im srt N HN) (plive_swap im srt N n HN)). Qed.
Lemma forth_run cutoff groups s sw l c rs : simple_run_of ea cutoff groups (new_parallel n pow2) s sw l = Some (c, rs) -> simple_run_of eb cutoff groups (new_bare n) s sw l = Some (F c, rs).
Proof.
  unfold simple_run_of. destruct (new_simple ea groups (new_parallel n pow2) s sw) as [[c0 r0]|] eqn:E; [|discriminate]. destruct (new_parallel_ok im n pow2) as [O St].
  destruct (sim_new_simple ea eb strip (par_ok im) (par_calc_sim im srt) (par_upd_sim im srt) (par_prep_sim im srt) (par_swap_sim im srt) groups (new_parallel n pow2) s sw c0 r0 O E) as [O' E']. rewrite St in E'. rewrite E'. clear E E' O. revert O'. generalize [r0]. revert c0.
  induction l as [|[[mu s1] sw1] l IH]; intros c0 q O'; cbn [simple_steps_of fst snd]; [intros [= <- <-]; reflexivity|]. destruct (simple_step ea cutoff mu s1 sw1 c0) as [[c1 r1]|] eqn:E; [|discriminate].
  destruct (sim_simple_step ea eb strip (par_ok im) (par_calc_sim im srt) (par_upd_sim im srt) (par_prep_sim im srt) (par_base_sim im srt) (par_swap_sim im srt) cutoff mu s1 sw1 c0 c1 r1 O' E) as [O1 E1]. rewrite E1. apply IH, O1.
Qed.
Lemma back_run cutoff groups s sw l k rs : schedules_ok n s l -> simple_run_of eb cutoff groups (new_bare n) s sw l = Some (k, rs) -> exists c, simple_run_of ea cutoff groups (new_parallel n pow2) s sw l = Some (c, rs) /\ F c = k.
Proof.
  intros [V VL]. unfold simple_run_of. destruct (new_parallel_ok im n pow2) as [_ St]. rewrite <- St. destruct (new_simple eb groups (strip (new_parallel n pow2)) s sw) as [[k0 r0]|] eqn:E; [|discriminate].
  destruct (fwd_new_simple ea eb strip (plive im N) n (plive_calc im srt N HN) (plive_upd im srt N HN) (plive_prep im srt N HN) (plive_swap im srt N n HN) groups (new_parallel n pow2) s sw k0 r0 V (new_plive im n pow2) E) as (c0 & -> & <- & Li).
  clear E V. revert Li VL. generalize [r0]. revert c0. induction l as [|[[mu s1] sw1] l IH]; intros c0 q Li VL; cbn [simple_steps_of fst snd]; [intros [= <- <-]; eauto|]. inversion VL as [|? ? V1 V2]; subst. cbn [fst snd] in V1.
  destruct (simple_step eb cutoff mu s1 sw1 (F c0)) as [[k1 r1]|] eqn:E; [|discriminate]. destruct (back_step _ _ _ _ _ _ _ V1 Li E) as (c1 & -> & <- & L1). apply IH; assumption.
Qed.
End Triangles.

Lemma cmap_same {A B} (f : A -> B) (c k : core A) : cmap f c = cmap f k -> same_algo c k /\ f (c_ev c) = f (c_ev k).
Proof. destruct c, k. unfold cmap, same_algo. cbn. intros [= -> -> -> -> -> -> -> -> E]. repeat split; auto. Qed.

(** C88: the scheduling does not matter for simple.  If a run returns, every run with the same
    groups, the same mutations and the same sorting, but with other schedules, returns; it ends
    with the same members, fitnesses, best member and statistics and with the same
    triangulations; and every generation calculated the same fitnesses, in another order.  (The
    caches may hold different entries.) *)
Theorem C88_simple : forall im srt cutoff pow2 groups s s' sw l l' c rs, let n := length groups in 1 <= pow2 <= 62 -> schedules_ok n s l -> schedules_ok n s' l' -> same_inputs l l' ->
  simple_run_of (parallel im srt) cutoff groups (new_parallel n pow2) s sw l = Some (c, rs) ->
  exists c' rs', simple_run_of (parallel im srt) cutoff groups (new_parallel n pow2) s' sw l' = Some (c', rs') /\ same_algo c c' /\ strip (c_ev c) = strip (c_ev c') /\ Forall2 (@Permutation _) rs rs'.
Proof.
  intros im srt cutoff pow2 groups s s' sw l l' c rs n Hk V V' I E. apply forth_run in E. destruct (run_any (next_tri im srt) (plain_fitness im) (tri_keep im srt) n cutoff groups (new_bare n) s s' sw l l' _ _ (new_rest delaunay n) eq_refl V V' I E) as (rs' & E' & P).
  destruct (back_run im srt pow2 n Hk cutoff groups s' sw l' _ _ V' E') as (c' & R & Ec). exists c', rs'. split; [exact R|]. destruct (cmap_same strip c c' (eq_sym Ec)) as [A B]. auto.
Qed.
Print Assumptions C88_simple.

Section Genetic.
Context (im : fimg) (srt : point -> list point -> option (list point)) (pow2 n cutoff : nat).
Hypothesis (Hk : 1 <= pow2 <= 62) (Hc : cutoff <> 0) (Hn : 2 * cutoff <= n).
Notation ea := (parallel im srt). Notation eb := (bare_ev im srt). Notation N := (Z.of_nat (Nat.pow 2 pow2)). Notation HN := (pow_range pow2 Hk). Notation Live := (galive (plive im N) n).
Lemma genetic_between groups s sw l g rs : length groups = n -> schedules_ok (n - cutoff) s l -> genetic_run_of ea cutoff groups (new_parallel n pow2) s sw l = Some (g, rs) ->
  par_ok im (c_ev (g_core g)) /\ Live g /\ ready cutoff n (gmap strip g).
Proof.
  intros Ln [V VL]. unfold genetic_run_of. destruct (new_genetic ea cutoff groups (new_parallel n pow2) s sw) as [[g0 r0]|] eqn:E; [|discriminate]. destruct (new_parallel_ok im n pow2) as [O St].
  destruct (sim_new_genetic ea eb strip (par_ok im) (par_calc_sim im srt) (par_upd_sim im srt) (par_prep_sim im srt) (par_swap_sim im srt) cutoff groups (new_parallel n pow2) s sw g0 r0 O E) as [O0 E0].
  destruct (fwd_new_genetic ea eb strip (plive im N) n (plive_calc im srt N HN) (plive_upd im srt N HN) (plive_prep im srt N HN) (plive_swap im srt N n HN) cutoff groups (new_parallel n pow2) s sw _ r0 V (new_plive im n pow2) E0) as (g1 & E1 & _ & Li).
  rewrite E in E1. injection E1 as <-. rewrite St in E0. pose proof (new_genetic_ready (next_tri im srt) (plain_fitness im) (tri_keep im srt) cutoff n groups (new_bare n) s sw _ _ Ln (new_rest delaunay n) V E0) as R.
  clear E E0 V O Ln. revert VL. generalize [r0]. revert g0 O0 Li R. induction l as [|[[mu s1] sw1] l IH]; intros g0 O0 Li R q VL; cbn [genetic_steps_of fst snd]; [intros [= <- <-]; auto|]. inversion VL as [|? ? V1 V2]; subst. cbn [fst snd] in V1.
  destruct (genetic_step ea cutoff mu s1 sw1 g0) as [[g1 r1]|] eqn:E; [|discriminate].
  destruct (sim_genetic_step ea eb strip (par_ok im) (par_calc_sim im srt) (par_upd_sim im srt) (par_prep_sim im srt) (par_base_sim im srt) (par_swap_sim im srt) cutoff mu s1 sw1 g0 g1 r1 O0 E) as [O1 E1].
  destruct (fwd_genetic_step ea eb strip (plive im N) n (plive_calc im srt N HN) (plive_upd im srt N HN) (plive_prep im srt N HN) (plive_base im srt N HN) (plive_swap im srt N n HN) cutoff mu s1 sw1 g0 _ r1 ltac:(lia) (proj1 (rd_both _ _ _ R)) V1 Li E1) as (g2 & E2 & _ & L1).
  rewrite E in E2. injection E2 as <-. apply IH; try assumption. exact (genetic_ready (next_tri im srt) (plain_fitness im) (tri_keep im srt) cutoff _ mu s1 sw1 _ _ _ Hc Hn V1 R E1).
Qed.
End Genetic.

(** C88: when the workers of a Step of modifiedGenetic have finished, the members, the fitnesses
    and the triangulations are the same under all schedules. *)
Theorem C88_genetic_calc : forall im srt cutoff pow2 groups s sw l g rs mu c1 s1 s2 g2 r, let n := length groups in 1 <= pow2 <= 62 -> cutoff <> 0 -> 2 * cutoff <= n ->
  schedules_ok (n - cutoff) s l -> genetic_run_of (parallel im srt) cutoff groups (new_parallel n pow2) s sw l = Some (g, rs) ->
  valid_schedule (n - cutoff) s1 -> valid_schedule (n - cutoff) s2 ->
  new_generation (parallel im srt) mu cutoff (n - cutoff) (g_core g) = Some c1 -> g_calc (parallel im srt) cutoff s1 (MGen c1 (map (fun _ => []) (g_ben g))) = Some (g2, r) ->
  exists g2' r', g_calc (parallel im srt) cutoff s2 (MGen c1 (map (fun _ => []) (g_ben g))) = Some (g2', r') /\ same_algo (g_core g2) (g_core g2') /\ strip (c_ev (g_core g2)) = strip (c_ev (g_core g2')) /\ Permutation r r'.
Proof.
  intros im srt cutoff pow2 groups s sw l g rs mu c1 s1 s2 g2 r n Hk Hc Hn V E V1 V2 G A. destruct (genetic_between im srt pow2 n cutoff Hk Hc Hn groups s sw l g rs eq_refl V E) as (O & Li & R). set (HN := pow_range pow2 Hk).
  destruct (sim_gen (parallel im srt) (bare_ev im srt) strip (par_ok im) (par_base_sim im srt) mu cutoff (n - cutoff) (g_core g) c1 O G) as [O1 G1].
  destruct (fwd_gen (parallel im srt) (bare_ev im srt) strip (plive im (Z.of_nat (Nat.pow 2 pow2))) n (plive_base im srt _ HN) mu cutoff (n - cutoff) (g_core g) _ Li G1) as (c2 & G2 & _ & L1). rewrite G in G2. injection G2 as <-.
  destruct (sim_g_calc (parallel im srt) (bare_ev im srt) strip (par_ok im) (par_calc_sim im srt) (par_upd_sim im srt) (par_prep_sim im srt) cutoff s1 (MGen c1 (map (fun _ => []) (g_ben g))) g2 r O1 A) as [_ A1].
  destruct (genetic_calc_any (next_tri im srt) (plain_fitness im) (tri_keep im srt) n cutoff mu s1 s2 (gmap strip g) _ _ r Hc Hn V1 V2 R G1 A1) as (k & r' & A2 & Ek & P).
  destruct (fwd_g_calc (parallel im srt) (bare_ev im srt) strip (plive im (Z.of_nat (Nat.pow 2 pow2))) n (plive_calc im srt _ HN) (plive_upd im srt _ HN) (plive_prep im srt _ HN) cutoff (n - cutoff) s2 (MGen c1 (map (fun _ => []) (g_ben g))) k r' ltac:(lia) V2 L1 A2) as (g3 & A3 & <- & _).
  exists g3, r'. split; [exact A3|]. destruct (cmap_same strip (g_core g2) (g_core g3)) as [X Y]; [symmetry; exact Ek|]. auto.
Qed.
Print Assumptions C88_genetic_calc.

(** * What modifiedGenetic makes of them *)
(** A black image of 8 x 8 pixels: the more of it a triangle covers, the fitter. *)
Definition dark : goimage := GoImage 8 8 (fun _ _ => (0, 0, 0)%Z).
Definition dark_fi : option fimg := match to_data dark with None => None | Some d => new_fimg 200 (as_idata d) 2 end.
Definition half_pts : list npoint := [q8 0 0; q8 4 0; q8 0 4].
(** The random mutation of the second point: to (1,0) for member 1, to (1,1/4) for the others. *)
Definition pull : mutator := fun i pts => random_mutate fhalf f1 (fun k => RD (if (k =? 1)%nat then f0 else fhalf) (f64_dy 3 (-2)) (if (i =? 1)%nat then fhalf else f64_dy 5 (-3))) pts.
Lemma pull_ok : mutator_ok pull.
Proof.
  apply (C30_random_ok fhalf f1 (fun i k => RD (if (k =? 1)%nat then f0 else fhalf) (f64_dy 3 (-2)) (if (i =? 1)%nat then fhalf else f64_dy 5 (-3)))); [vm_compute; reflexivity|]. intros i k. cbn [rd_x rd_y].
  split; [|destruct (i =? 1)]; apply draw01_bool; vm_compute; reflexivity.
Qed.
Definition sched_a : list act := [Prep; Calc 0; Calc 1; Calc 2; Recv 0; Recv 1; Recv 2].
Definition sched_b : list act := [Prep; Calc 0; Calc 1; Calc 2; Recv 0; Recv 2; Recv 1].
Definition dark_case (gf : option fimg) : bool :=
  match gf with None => false | Some fi =>
  match new_genetic (parallel fi insertion_sort) 1 (repeat half_pts 4) (new_parallel 4 3) sched_a [] with None => false | Some (g0, r0) =>
  sortedb (c_fits (g_core g0)) && all_pos r0 &&
  match genetic_step (parallel fi insertion_sort) 1 pull sched_a [(0, 3)] g0, genetic_step (parallel fi insertion_sort) 1 pull sched_b [(0, 3)] g0 with
  | Some (g1, r1), Some (g2, r2) =>
      (fi_w fi =? 8)%Z && (fi_h fi =? 8)%Z && sortedb (c_fits (g_core g1)) && all_pos r1 && sortedb (c_fits (g_core g2)) && all_pos r2 &&
      match nth_error (buf (g_core g1) (best_slice (g_core g1))) 1, nth_error (buf (g_core g2) (best_slice (g_core g2))) 1 with Some p1, Some p2 => flt (ny p1) (ny p2) | _, _ => false end
  | _, _ => false
  end end end.
Lemma dark_case_true : dark_case dark_fi = true. Proof. vm_compute. reflexivity. Qed.
Lemma sched_a_ok : valid_schedule 3 sched_a. Proof. apply scheduleb_ok. vm_compute. reflexivity. Qed.
Lemma sched_b_ok : valid_schedule 3 sched_b. Proof. apply scheduleb_ok. vm_compute. reflexivity. Qed.

Lemma dark_case_ok gf : dark_case gf = true -> exists fi mu s s' sw g0 g1 r1 g2 r2 p1 p2, good_size (fi_w fi) (fi_h fi) /\ mutator_ok mu /\ valid_schedule 3 s /\ valid_schedule 3 s' /\
  genetic_run fi insertion_sort 1 4 3 3 g0 /\ genetic_step (parallel fi insertion_sort) 1 mu s sw g0 = Some (g1, r1) /\ genetic_step (parallel fi insertion_sort) 1 mu s' sw g0 = Some (g2, r2) /\
  genetic_run fi insertion_sort 1 4 3 3 g1 /\ genetic_run fi insertion_sort 1 4 3 3 g2 /\
  nth_error (buf (g_core g1) (best_slice (g_core g1))) 1 = Some p1 /\ nth_error (buf (g_core g2) (best_slice (g_core g2))) 1 = Some p2 /\ flt (ny p1) (ny p2) = true.
Proof.
  unfold dark_case. intros H. destruct gf as [fi|]; [|discriminate].
  destruct (new_genetic (parallel fi insertion_sort) 1 (repeat half_pts 4) (new_parallel 4 3) sched_a []) as [[g0 r0]|] eqn:E0; [|discriminate]. rewrite !andb_true_iff in H. destruct H as [[S0 N0] H].
  destruct (genetic_step (parallel fi insertion_sort) 1 pull sched_a [(0, 3)] g0) as [[g1 r1]|] eqn:E1; [|discriminate]. destruct (genetic_step (parallel fi insertion_sort) 1 pull sched_b [(0, 3)] g0) as [[g2 r2]|] eqn:E2; [|discriminate].
  rewrite !andb_true_iff in H. destruct H as [[[[[[W1 H1] S1] N1] S2] N2] P]. apply Z.eqb_eq in W1, H1.
  assert (R0 : genetic_run fi insertion_sort 1 4 3 3 g0).
  { eapply gr_new; [| | |exact E0| |]; [reflexivity|apply (pts_ok half_pts); vm_compute; reflexivity|apply sched_a_ok|apply sortedb_ok, S0|apply all_pos_ok, N0]. }
  destruct (nth_error (buf (g_core g1) (best_slice (g_core g1))) 1) as [p1|] eqn:B1; [|discriminate]. destruct (nth_error (buf (g_core g2) (best_slice (g_core g2))) 1) as [p2|] eqn:B2; [|discriminate].
  exists fi, pull, sched_a, sched_b, [(0, 3)], g0, g1, r1, g2, r2, p1, p2. rewrite W1, H1.
  refine (conj _ (conj pull_ok (conj sched_a_ok (conj sched_b_ok (conj R0 (conj E1 (conj E2 (conj _ (conj _ (conj B1 (conj B2 P)))))))))));
    [unfold good_size; lia|eapply gr_step; [exact R0|apply pull_ok|apply sched_a_ok|exact E1|apply sortedb_ok, S1|apply all_pos_ok, N1]|eapply gr_step; [exact R0|apply pull_ok|apply sched_b_ok|exact E2|apply sortedb_ok, S2|apply all_pos_ok, N2]].
Qed.
(** C88, refuted for the whole Step of modifiedGenetic: two runs with the same groups, the same
    random mutations and the same sorting that differ only in which of two equally fit members
    reports first end with different best members. *)
Theorem C88_genetic_refuted : exists fi mu s s' sw g0 g1 r1 g2 r2 p1 p2, good_size (fi_w fi) (fi_h fi) /\ mutator_ok mu /\ valid_schedule 3 s /\ valid_schedule 3 s' /\
  genetic_run fi insertion_sort 1 4 3 3 g0 /\ genetic_step (parallel fi insertion_sort) 1 mu s sw g0 = Some (g1, r1) /\ genetic_step (parallel fi insertion_sort) 1 mu s' sw g0 = Some (g2, r2) /\
  genetic_run fi insertion_sort 1 4 3 3 g1 /\ genetic_run fi insertion_sort 1 4 3 3 g2 /\
  nth_error (buf (g_core g1) (best_slice (g_core g1))) 1 = Some p1 /\ nth_error (buf (g_core g2) (best_slice (g_core g2))) 1 = Some p2 /\ flt (ny p1) (ny p2) = true.
Proof. exact (dark_case_ok dark_fi dark_case_true). Qed.
Print Assumptions C88_genetic_refuted.

(** * Polygons *)
Section Polygons.
Context (im : idata) (bs : Z) (fi : fimg) (srt : sorter) (hsrt : point -> list point -> option (list point)) (cutoff n l pow2 : nat).
Hypothesis (Him : image_function im bs fi) (SO : sorter_ok srt) (Hh : hull_sort hsrt) (Hl : (Z.of_nat l <= 32765)%Z) (Hcut : cutoff <> 0) (Hk : 1 <= pow2 <= 62).
Notation F := (cmap pstrip). Notation ea := (pparallel fi srt hsrt). Notation N := (Z.of_nat (Nat.pow 2 pow2)).
Notation next := (next_vor fi srt hsrt). Notation fit := (fit2 fi). Notation ev := (keep_ev next fit). Notation holds := (vor_of fi srt).
Notation HN := (pow_range pow2 Hk). Notation Usz := (im_usual im bs fi Him).
Notation Vnew := (vor_new fi srt hsrt l Usz Hl). Notation Vkeep := (vor_keep fi srt hsrt). Notation Vmod := (vor_mod fi srt hsrt l Usz (proj1 Hh) (proj2 Hh) Hl).
Notation Fine := (vor_fine fi srt cutoff l SO Usz Hcut).
Notation Qc := (qlive_calc fi srt hsrt N HN). Notation Qu := (qlive_upd fi srt hsrt N HN). Notation Qp := (qlive_prep fi srt hsrt N HN). Notation Qb := (qlive_base fi srt hsrt N HN). Notation Qs := (qlive_swap fi srt hsrt N n HN).
Notation Cs := (calc2_sim fi srt hsrt). Notation Us := (pupd_sim fi srt hsrt). Notation Ps := (pprep_sim fi srt hsrt). Notation Bs := (pbase_sim fi srt hsrt). Notation Ss := (pswap_sim fi srt hsrt).
Notation Inv := (pprogram_inv im bs fi srt hsrt cutoff n l pow2 Him SO Hh Hl Hcut Hk).
Lemma poly_forth c mu s sw c' r : polygon_program fi srt hsrt cutoff n l pow2 c -> mutator_ok mu -> valid_schedule n s -> simple_step ea cutoff mu s sw c = Some (c', r) -> simple_step ev cutoff mu s sw (F c) = Some (F c', r).
Proof.
  intros R Hmu Hv E. destruct (Inv c R) as [Li H He _ _]. destruct (simple_history_shape ev cutoff n l (F c) Hcut H) as [Sh Sq].
  apply (simple_step_simh next fit holds l Vnew Vkeep Vmod ea pstrip (ppar_ok fi) small_polys Fine Cs Us Ps Bs Ss cutoff mu s sw n c c' r Hcut Sh Sq Hmu Hv He (proj1 Li) E).
Qed.
Lemma poly_new_forth groups s sw c r : point_groups n l groups -> valid_schedule n s -> new_simple ea groups (new_pparallel n pow2) s sw = Some (c, r) -> new_simple ev groups (pstrip (new_pparallel n pow2)) s sw = Some (F c, r).
Proof.
  intros [L Gf] Hv E. destruct (new_pparallel_ok fi n pow2) as [O St].
  apply (new_simple_simh next fit holds l Vnew Vkeep Vmod ea pstrip (ppar_ok fi) small_polys Fine Cs Us Ps Ss an_ivor groups (new_pparallel n pow2) s sw n c r St L Gf Hv O E).
Qed.
Lemma poly_rest c : polygon_program fi srt hsrt cutoff n l pow2 c -> at_rest (c_ev (F c)) /\ both n (F c).
Proof.
  induction 1 as [groups s sw c r G Hv E So|c mu s sw c' r R IH Hmu Hv E So].
  - pose proof (poly_new_forth _ _ _ _ _ G Hv E) as E'. destruct (new_pparallel_ok fi n pow2) as [_ St]. rewrite St in E'. destruct (new_any next fit Vkeep n groups _ s s sw _ r (new_rest ivor n) (proj1 G) Hv Hv E') as (A & B & _). auto.
  - destruct IH as [A B]. destruct (step_any next fit Vkeep n cutoff mu s s sw (F c) _ r A B Hv Hv (poly_forth _ _ _ _ _ _ R Hmu Hv E)) as (A' & B' & _). auto.
Qed.
Lemma poly_step_any c k mu s s' sw c' r : polygon_program fi srt hsrt cutoff n l pow2 c -> polygon_program fi srt hsrt cutoff n l pow2 k -> F c = F k -> mutator_ok mu -> valid_schedule n s -> valid_schedule n s' ->
  simple_step ea cutoff mu s sw c = Some (c', r) -> exists k' r', simple_step ea cutoff mu s' sw k = Some (k', r') /\ F c' = F k' /\ Permutation r r'.
Proof.
  intros R Rk Ek Hmu V V' E. destruct (poly_rest c R) as [A B]. destruct (step_any next fit Vkeep n cutoff mu s s' sw (F c) _ r A B V V' (poly_forth _ _ _ _ _ _ R Hmu V E)) as (_ & _ & r' & E' & P). rewrite Ek in E'. destruct (Inv k Rk) as [Li _ _ _ _].
  destruct (fwd_simple_step ea ev pstrip (qlive fi N) n Qc Qu Qp Qb Qs cutoff mu s' sw k _ r' V' Li E') as (k' & E2 & Ec & _). exists k', r'. auto.
Qed.
Lemma poly_new_any groups s s' sw c r : point_groups n l groups -> valid_schedule n s -> valid_schedule n s' -> new_simple ea groups (new_pparallel n pow2) s sw = Some (c, r) ->
  exists k r', new_simple ea groups (new_pparallel n pow2) s' sw = Some (k, r') /\ F c = F k /\ Permutation r r'.
Proof.
  intros G V V' E. pose proof (poly_new_forth _ _ _ _ _ G V E) as E'. assert (A : at_rest (pstrip (new_pparallel n pow2))) by (destruct (new_pparallel_ok fi n pow2) as [_ St]; rewrite St; apply (new_rest ivor n)).
  destruct (new_any next fit Vkeep n groups _ s s' sw _ r A (proj1 G) V V' E') as (_ & _ & r' & E2 & P). destruct (fwd_new_simple ea ev pstrip (qlive fi N) n Qc Qu Qp Qs groups (new_pparallel n pow2) s' sw _ r' V' (new_qlive fi n pow2) E2) as (k & E3 & Ec & _). exists k, r'. auto.
Qed.
End Polygons.

Lemma poly_pair im bs fi srt hsrt cutoff n l pow2 c k : usual_program im bs fi srt hsrt cutoff n l pow2 -> polygon_pair fi srt hsrt cutoff n l pow2 c k ->
  polygon_program fi srt hsrt cutoff n l pow2 c /\ polygon_program fi srt hsrt cutoff n l pow2 k /\ cmap pstrip c = cmap pstrip k.
Proof.
  intros (Him & SO & Hh & Hl & Hc & Hk & Hn) P. induction P as [groups s s' sw c k r r' G V V' E E' So|c k mu s s' sw c' k' r r' P IH Hmu V V' E E' So].
  - destruct (poly_new_any im bs fi srt hsrt cutoff n l pow2 Him SO Hh Hl Hc Hk groups s s' sw c r G V V' E) as (k1 & r1 & E1 & Ec & _). rewrite E' in E1. injection E1 as <- _. split; [exact (pg_new fi srt hsrt cutoff n l pow2 groups s sw c r G V E So)|]. split; [|exact Ec]. apply (pg_new fi srt hsrt cutoff n l pow2 groups s' sw k r' G V' E'). replace (c_fits k) with (c_fits c); [exact So|]. apply (cmap_same pstrip c k Ec).
  - destruct IH as (R & Rk & Ek). destruct (poly_step_any im bs fi srt hsrt cutoff n l pow2 Him SO Hh Hl Hc Hk c k mu s s' sw c' r R Rk Ek Hmu V V' E) as (k1 & r1 & E1 & Ec & _). rewrite E' in E1. injection E1 as <- _.
    split; [exact (pg_step fi srt hsrt cutoff n l pow2 c mu s sw c' r R Hmu V E So)|]. split; [|exact Ec]. apply (pg_step fi srt hsrt cutoff n l pow2 k mu s' sw k' r' Rk Hmu V' E'). replace (c_fits k') with (c_fits c'); [exact So|]. apply (cmap_same pstrip c' k' Ec).
Qed.
(** After every Step both have the same members, fitnesses, best member, statistics and Voronoi
    diagrams, and a Step that returns in the one returns in the other. *)
Theorem C88_polygons : forall im bs fi srt hsrt cutoff n l pow2 c k, usual_program im bs fi srt hsrt cutoff n l pow2 -> polygon_pair fi srt hsrt cutoff n l pow2 c k ->
  same_algo c k /\ pstrip (c_ev c) = pstrip (c_ev k) /\
  forall mu s s' sw c' r, mutator_ok mu -> valid_schedule n s -> valid_schedule n s' -> simple_step (pparallel fi srt hsrt) cutoff mu s sw c = Some (c', r) ->
    exists k' r', simple_step (pparallel fi srt hsrt) cutoff mu s' sw k = Some (k', r') /\ Permutation r r'.
Proof.
  intros im bs fi srt hsrt cutoff n l pow2 c k U P. destruct (poly_pair _ _ _ _ _ _ _ _ _ _ _ U P) as (R & Rk & Ek). destruct (cmap_same pstrip c k Ek) as [A B]. split; [exact A|]. split; [exact B|].
  intros mu s s' sw c' r Hmu V V' E. destruct U as (Him & SO & Hh & Hl & Hc & Hk & Hn). destruct (poly_step_any im bs fi srt hsrt cutoff n l pow2 Him SO Hh Hl Hc Hk c k mu s s' sw c' r R Rk Ek Hmu V V' E) as (k1 & r1 & E1 & _ & P1). eauto.
Qed.
Print Assumptions C88_polygons.
(** NewSimple returns under all schedules or under none. *)
Theorem C88_polygons_new : forall im bs fi srt hsrt cutoff n l pow2 groups s s' sw c r, usual_program im bs fi srt hsrt cutoff n l pow2 -> point_groups n l groups -> valid_schedule n s -> valid_schedule n s' ->
  new_simple (pparallel fi srt hsrt) groups (new_pparallel n pow2) s sw = Some (c, r) -> exists k r', new_simple (pparallel fi srt hsrt) groups (new_pparallel n pow2) s' sw = Some (k, r') /\ Permutation r r'.
Proof.
  intros im bs fi srt hsrt cutoff n l pow2 groups s s' sw c r (Him & SO & Hh & Hl & Hc & Hk & Hn) G V V' E. destruct (poly_new_any im bs fi srt hsrt cutoff n l pow2 Him SO Hh Hl Hc Hk groups s s' sw c r G V V' E) as (k & r' & E1 & _ & P). eauto.
Qed.
Print Assumptions C88_polygons_new.

(** The case of C28 under two schedules with the caches filled in another order. *)
Definition other_sched : list act := [Calc 0; Calc 1; Prep; Recv 0; Recv 1].
Lemma other_sched_ok : valid_schedule 2 other_sched. Proof. apply scheduleb_ok. vm_compute. reflexivity. Qed.
Definition two_runs (gf : option fimg) : bool :=
  match gf with None => false | Some fi =>
  let run s := simple_run_of (parallel fi insertion_sort) 1 (repeat pts0 2) (new_parallel 2 3) s [] [(nudge, s, [(0, 1)]); (nudge, s, [])] in
  match run ex_sched, run other_sched with
  | Some (c, rs), Some (c', rs') =>
      forallb (fun x => Z.eqb (micros (fst x)) (micros (snd x))) (combine (c_fits c) (c_fits c')) && feq (stats_best c) (stats_best c') && (length rs =? 3) &&
      match map fst (nth 2 rs []), map fst (nth 2 rs' []) with [0; 1], [1; 0] => true | _, _ => false end
  | _, _ => false
  end end.
Example C88_example : two_runs grad_fi = true /\ schedules_ok 2 ex_sched [(nudge, ex_sched, [(0, 1)]); (nudge, ex_sched, [])] /\ schedules_ok 2 other_sched [(nudge, other_sched, [(0, 1)]); (nudge, other_sched, [])] /\
  same_inputs [(nudge, ex_sched, [(0, 1)]); (nudge, ex_sched, [])] [(nudge, other_sched, [(0, 1)]); (nudge, other_sched, [])].
Proof.
  split; [vm_compute; reflexivity|]. split; [|split].
  - split; [apply ex_sched_ok|]. constructor; [apply ex_sched_ok|constructor; [apply ex_sched_ok|constructor]].
  - split; [apply other_sched_ok|]. constructor; [apply other_sched_ok|constructor; [apply other_sched_ok|constructor]].
  - constructor; [split; reflexivity|constructor; [split; reflexivity|constructor]].
Qed.
