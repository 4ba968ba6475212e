(** C69: programs over the polygon fitness functions.  The fitnesses are numbers, so that
    what C65 and C68 say holds with no assumption on them, and NewSimple,
    NewModifiedGenetic and Step can only panic in the comparison of two vertices of a
    Voronoi cell. *)
From Coq Require Import Reals Lra ZArith List Bool Arith Lia Permutation.
From Flocq Require Import IEEE754.BinarySingleNaN.
From Verif Require Import GoNum M_Norm M_Slice M_Geom M_Image S_Image M_Raster S_Norm M_Delaunay S_Delaunay S_Remove M_Algo S_Algo M_Fitness S_Fitness S_Run S_Run2 M_Voronoi S_Voronoi M_Polygons S_Polygons S_PolyRun S_PolyProg
  L_Insert L_Hist L_Reach L_Norm L_Algo L_Algo2 L_Algo3 L_Algo4 L_Algo5 L_Fit L_Fit3 L_Sim L_Fwd L_Hold L_Tri L_SimH L_Poly L_Poly2 L_VHold L_Total L_PFwd L_NewCalc L_SliceSort L_Image P_Algo P_AlgoEx P_Fitness P_Remove P_Voronoi P_Run P_Run2 P_PolyRun P_PolySum.
Import ListNotations.
Open Scope Z_scope.

Section Fit.
Context (im : idata) (bs : Z) (fi : fimg) (srt : sorter).
Hypothesis Him : image_function im bs fi.
Hypothesis SO : sorter_ok srt.
Notation Usz := (im_usual im bs fi Him).
Lemma vor_count pts v : vor_of fi srt pts v -> (length (iv_iter v) <= length pts)%nat.
Proof.
  intros H. destruct (vor_shown fi srt SO Usz pts v H) as (Q & qs & cells & Pm & (Nd & Iq & F2) & ->).
  assert (L1 : length qs = length cells) by (clear - F2; induction F2; cbn; congruence).
  assert (L2 : (length qs <= length Q)%nat) by (apply NoDup_incl_length; [exact Nd|intros q I; apply Iq, I]).
  rewrite (Permutation_length Pm), map_length in L2. pose proof (filter_le nonempty cells). lia.
Qed.
Lemma vor_fit l pts v : okp l pts -> vor_of fi srt pts v -> exists f, fit2 fi v = Some f.
Proof.
  intros O H. rewrite fit2_small by (eapply (vor_fine fi srt 1 l SO Usz ltac:(discriminate)); eauto). pose proof (vor_framed fi srt SO Usz pts v H) as Fr.
  destruct Him as (G & U & B1 & B2 & B3 & fuel & Fu & E). destruct U as (W & H' & _).
  destruct (C66_block_size im fuel bs fi bs fi v G ltac:(lia) ltac:(lia) Fu B1 B2 B3 E B1 B2 B3 E Fr) as [_ N]. destruct (plain_pfitness fi v); [eauto|congruence].
Qed.
Lemma vor_finite l pts v f : Z.of_nat l <= 32765 -> okp l pts -> vor_of fi srt pts v -> fit2 fi v = Some f -> is_finite f = true.
Proof.
  intros Hl [L _] H E. apply fit2_some in E as [E _]. destruct Him as (G & U & _ & _ & _ & fuel & _ & En). destruct U as (W & H' & _).
  apply (C66_fitness_finite im fuel bs fi v f G ltac:(lia) ltac:(lia) En); [|exact E]. pose proof (vor_count pts v H). lia.
Qed.
End Fit.

Section Prog.
Context (im : idata) (bs : Z) (fi : fimg) (srt : sorter) (hsrt : point -> list point -> option (list point)) (cutoff n l pow2 : nat).
Hypothesis Him : image_function im bs fi.
Hypothesis SO : sorter_ok srt.
Hypothesis Hh : hull_sort hsrt.
Hypothesis Hl : Z.of_nat l <= 32765.
Hypothesis Hcut : cutoff <> 0%nat.
Hypothesis Hk : (1 <= pow2 <= 62)%nat.
Notation F := (cmap pstrip). Notation ea := (pparallel fi srt hsrt). Notation N := (Z.of_nat (Nat.pow 2 pow2)).
Notation next := (next_vor fi srt hsrt). Notation fit := (fit2 fi). Notation ev := (keep_ev next fit). Notation holds := (vor_of fi srt).
Notation Held := (held fit holds l). Notation GHeld := (gheld fit holds l).
Notation Live := (alive (qlive fi N) n).
Notation HN := (pow_range pow2 Hk).
Notation Usz := (im_usual im bs fi Him).
Notation Vnew := (vor_new fi srt hsrt l Usz Hl). Notation Vkeep := (vor_keep fi srt hsrt). Notation Vmod := (vor_mod fi srt hsrt l Usz (proj1 Hh) (proj2 Hh) Hl).
Notation Fine := (vor_fine fi srt cutoff l SO Usz Hcut).
Notation Qc := (qlive_calc fi srt hsrt N HN). Notation Qu := (qlive_upd fi srt hsrt N HN). Notation Qp := (qlive_prep fi srt hsrt N HN). Notation Qb := (qlive_base fi srt hsrt N HN). Notation Qs := (qlive_swap fi srt hsrt N n HN).
Notation Cs := (calc2_sim fi srt hsrt). Notation Us := (pupd_sim fi srt hsrt). Notation Ps := (pprep_sim fi srt hsrt). Notation Bs := (pbase_sim fi srt hsrt). Notation Ss := (pswap_sim fi srt hsrt).

(** What can fail. *)
Definition Vfnew (pts : list npoint) : Prop := vpanic fi srt (map (mut_point fi) pts).
Definition Vfmod (q pts : list npoint) : Prop := vpanic fi srt (map (mut_point fi) q ++ map (mut_point fi) pts).
Lemma Vtnew base pts log : okp l pts -> (exists d, next None base pts log = Some d) \/ Vfnew pts.
Proof. intros O. pose proof (vor_new_ex fi srt hsrt l Usz Hl base pts log O) as K. destruct (next None base pts log); [left; eauto|right; exact K]. Qed.
Lemma Vtmod q d q' o pts log : okp l q -> holds q d -> okp l q' -> holds q' o -> okp l pts -> swaps_out q' pts log -> (exists d', next (Some d) (Some o) pts log = Some d') \/ Vfmod q' pts.
Proof.
  intros A B C D E G. pose proof (vor_mod_ex fi srt hsrt l Usz (proj1 Hh) (proj2 Hh) Hl q d q' o pts log A B C D E G) as K.
  destruct (next (Some d) (Some o) pts log); [left; eauto|right; exact K].
Qed.
Lemma vpanic_among P pts : vpanic fi srt P -> (forall p, In p P -> In p (map (mut_point fi) pts)) -> cell_comparison_panics fi pts.
Proof.
  intros (Q & q & I & J & St) H. exists Q, q. split; [intros p Ip; apply H, I, Ip|]. split; [exact J|]. eapply stuck_panics; eauto.
Qed.
Lemma fails_among nb bp pts : fails Vfnew Vfmod nb bp pts -> cell_comparison_panics fi pts \/ exists j, (j < nb)%nat /\ cell_comparison_panics fi (bp j ++ pts).
Proof.
  intros [K|(j & Hj & K)]; [left; apply (vpanic_among _ _ K); auto|right; exists j; split; [exact Hj|]]. apply (vpanic_among _ _ K). intros p. rewrite map_app. auto.
Qed.

(** * The simple algorithm *)
Lemma pheld_finites c : Held n (F c) -> length (c_fits c) = n -> Forall (fun f => is_finite f = true) (c_fits c).
Proof.
  intros [_ H] L. apply Forall_forall. intros f Hf. apply (In_nth _ _ f0) in Hf as (k & Hk' & <-). destruct (H k ltac:(lia)) as (O & id & d & _ & D & E).
  exact (vor_finite im bs fi srt Him SO l _ d _ Hl O D E).
Qed.
Record ppinv (c : core ppar) : Prop := {
  pp_live : Live c; pp_hist : simple_history ev cutoff n l (F c); pp_held : Held n (F c); pp_fin : Forall (fun f => is_finite f = true) (c_fits c); pp_len : length (c_fits c) = n }.
Lemma pstep_inv c mu s sw c' r : ppinv c -> mutator_ok mu -> valid_schedule n s -> simple_step ea cutoff mu s sw c = Some (c', r) ->
  Live c' /\ Held n (F c') /\ Forall (fun f => is_finite f = true) (c_fits c') /\ length (c_fits c') = n /\ (sorted (c_fits c') -> ppinv c') /\
  (forall i, (i < cutoff)%nat -> In (nth i (c_fits c) f0) (c_fits c')).
Proof.
  intros [Li H He Fi Le] Hmu Hv E. destruct (simple_history_shape ev cutoff n l (F c) Hcut H) as [Sh Sq].
  destruct (simple_step_simh next fit holds l Vnew Vkeep Vmod ea pstrip (ppar_ok fi) small_polys Fine Cs Us Ps Bs Ss cutoff mu s sw n c c' r Hcut Sh Sq Hmu Hv He (proj1 Li) E) as [O' E'].
  destruct (fwd_simple_step ea ev pstrip (qlive fi N) n Qc Qu Qp Qb Qs cutoff mu s sw c (F c') r Hv Li E') as (c2 & E2 & _ & Li').
  rewrite E in E2. injection E2 as <-.
  destruct (simple_held next fit holds l Vnew Vkeep Vmod cutoff mu s sw n (F c) (F c') r Hcut Sh Sq Hmu Hv He E') as (He' & K & Nr).
  destruct (simple_step_spec ev cutoff mu s sw n l (F c) (F c') r Hcut Sh Sq Hmu Hv E') as (Sh' & _).
  pose proof (sh_fits _ _ _ Sh' : length (c_fits c') = n) as Le'. pose proof (pheld_finites c' He' Le') as Fi'.
  split; [exact Li'|]. split; [exact He'|]. split; [exact Fi'|]. split; [exact Le'|]. split; [|intros i Hi; apply (K i Hi)].
  intros So. constructor; try assumption. eapply sh_step; eauto.
Qed.
Lemma pnew_inv groups s sw c r : point_groups n l groups -> valid_schedule n s -> new_simple ea groups (new_pparallel n pow2) s sw = Some (c, r) ->
  Live c /\ Held n (F c) /\ Forall (fun f => is_finite f = true) (c_fits c) /\ length (c_fits c) = n /\ (sorted (c_fits c) -> ppinv c).
Proof.
  intros [L Gf] Hv E. destruct (new_pparallel_ok fi n pow2) as [O St].
  destruct (new_simple_simh next fit holds l Vnew Vkeep Vmod ea pstrip (ppar_ok fi) small_polys Fine Cs Us Ps Ss an_ivor groups (new_pparallel n pow2) s sw n c r St L Gf Hv O E) as [O' E'].
  destruct (fwd_new_simple ea ev pstrip (qlive fi N) n Qc Qu Qp Qs groups (new_pparallel n pow2) s sw (F c) r Hv (new_qlive fi n pow2) E') as (c2 & E2 & _ & Li').
  rewrite E in E2. injection E2 as <-. rewrite St in E'.
  destruct (new_simple_held next fit holds l Vnew Vkeep Vmod an_ivor groups s sw n (F c) r L Gf Hv E') as [He Nr].
  assert (Hv' : valid_schedule (length groups) s) by (rewrite L; exact Hv).
  destruct (new_simple_spec ev groups _ s sw (F c) r l Gf Hv' E') as (Sh' & _). rewrite L in Sh'.
  pose proof (sh_fits _ _ _ Sh' : length (c_fits c) = n) as Le'. pose proof (pheld_finites c He Le') as Fi'.
  split; [exact Li'|]. split; [exact He|]. split; [exact Fi'|]. split; [exact Le'|]. intros So. constructor; try assumption. eapply sh_init; eauto.
Qed.
Lemma pprogram_inv c : polygon_program fi srt hsrt cutoff n l pow2 c -> ppinv c.
Proof.
  induction 1 as [groups s sw c r G Hv E So|c mu s sw c' r _ IH Hmu Hv E So].
  - destruct (pnew_inv groups s sw c r G Hv E) as (_ & _ & Fi & _ & K). apply K, So, finites_num, Fi.
  - destruct (pstep_inv c mu s sw c' r IH Hmu Hv E) as (_ & _ & Fi & _ & K & _). apply K, So, finites_num, Fi.
Qed.
(** The fitnesses a Step got from the workers are those of the members, so that they are
    numbers too. *)
Lemma pprogram_cells c i : polygon_program fi srt hsrt cutoff n l pow2 c -> (i < n)%nat -> evaluated_cells fi (c_ev c) i (nth i (members c) []) (nth i (c_fits c) f0).
Proof.
  intros R Hi. destruct (pprogram_inv c R) as [_ _ [_ He] _ _]. specialize (He i Hi). apply (holdsat2 fi holds l Fine) in He. eapply pstrip_own; [exact SO|exact Usz|exact He].
Qed.
Lemma pstep_returns c mu s sw : (0 < n)%nat -> (cutoff <= n)%nat -> polygon_program fi srt hsrt cutoff n l pow2 c -> mutator_ok mu -> valid_schedule n s -> swaps_within n sw ->
  (exists c' r, simple_step ea cutoff mu s sw c = Some (c', r)) \/
  exists i, (cutoff <= i < n)%nat /\ let child := fst (mu i (nth ((i - cutoff) mod cutoff) (members c) [])) in
    cell_comparison_panics fi child \/ exists j, (j < cutoff)%nat /\ cell_comparison_panics fi (nth j (members c) [] ++ child).
Proof.
  intros Hn Hc R Hmu Hv Hw. destruct (pprogram_inv c R) as [Li H He Fi Le]. destruct (simple_history_shape ev cutoff n l (F c) Hcut H) as [Sh Sq].
  destruct (simple_step_total next fit holds l Vnew Vkeep Vmod Vfnew Vfmod Vtnew Vtmod (vor_fit im bs fi srt Him SO l) cutoff mu s sw n (F c) Hn Hcut Hc Sh Sq Hmu Hv (within_range n sw Hw) He) as [(k & r & E)|(i & Hi & Fa)].
  - destruct (fwd_simple_step ea ev pstrip (qlive fi N) n Qc Qu Qp Qb Qs cutoff mu s sw c k r Hv Li E) as (c2 & E2 & _ & _). left. eauto.
  - right. exists i. split; [exact Hi|]. apply fails_among in Fa. exact Fa.
Qed.
Lemma pnew_returns groups s sw : (0 < n)%nat -> point_groups n l groups -> valid_schedule n s -> swaps_within n sw ->
  (exists c r, new_simple ea groups (new_pparallel n pow2) s sw = Some (c, r)) \/ exists i, (i < n)%nat /\ cell_comparison_panics fi (nth i groups []).
Proof.
  intros Hn [L Gf] Hv Hw. destruct (new_pparallel_ok fi n pow2) as [O St].
  destruct (new_simple_total next fit holds l Vnew Vkeep Vmod Vfnew Vfmod Vtnew Vtmod (vor_fit im bs fi srt Him SO l) an_ivor groups s sw n Hn L Gf Hv (within_range n sw Hw)) as [(k & r & E)|(i & Hi & Fa)].
  - rewrite <- St in E. destruct (fwd_new_simple ea ev pstrip (qlive fi N) n Qc Qu Qp Qs groups (new_pparallel n pow2) s sw k r Hv (new_qlive fi n pow2) E) as (c2 & E2 & _ & _). left. eauto.
  - right. exists i. split; [exact Hi|]. apply (vpanic_among _ _ Fa). auto.
Qed.

(** * The modified genetic algorithm *)
Hypothesis H2c : (2 * cutoff <= n)%nat.
Record pqinv (g : mgen ppar) : Prop := {
  pq_live : Live (g_core g); pq_hist : genetic_history ev cutoff n l (gmap pstrip g); pq_held : GHeld cutoff n (F (g_core g)); pq_sorted : sorted (c_fits (g_core g)) }.
Lemma pg_run_inv g : genetic_run_on ea (new_pparallel n pow2) cutoff n l g -> pqinv g.
Proof.
  induction 1 as [groups s sw g r L Gf Hv E So Po|g mu s sw g' r _ [Li H He S0] Hmu Hv E So Po].
  - destruct (new_pparallel_ok fi n pow2) as [O St].
    destruct (new_genetic_simh next fit holds l Vnew Vkeep Vmod ea pstrip (ppar_ok fi) small_polys Fine Cs Us Ps Ss an_ivor cutoff groups (new_pparallel n pow2) s sw n g r St L Gf Hv O E) as [O' E'].
    destruct (fwd_new_genetic ea ev pstrip (qlive fi N) n Qc Qu Qp Qs cutoff groups (new_pparallel n pow2) s sw (gmap pstrip g) r Hv (new_qlive fi n pow2) E') as (g2 & E2 & _ & Li').
    rewrite E in E2. injection E2 as <-. rewrite St in E'.
    pose proof (new_genetic_held next fit holds l Vnew Vkeep Vmod an_ivor cutoff groups s sw n (gmap pstrip g) r Hcut L Gf Hv E' Po) as He.
    constructor; [exact Li'| |exact He|exact So]. eapply gh_init; eauto.
  - destruct (genetic_history_shape ev cutoff n l (gmap pstrip g) Hcut H) as (Sh & Sq & Lb & _).
    destruct (genetic_step_simh next fit holds l Vnew Vkeep Vmod ea pstrip (ppar_ok fi) small_polys Fine Cs Us Ps Bs Ss cutoff mu s sw n g g' r Hcut H2c Sh Sq Hmu Hv Lb He S0 (proj1 Li) E) as [O' E'].
    destruct (fwd_genetic_step ea ev pstrip (qlive fi N) n Qc Qu Qp Qb Qs cutoff mu s sw g (gmap pstrip g') r ltac:(lia) (sh_pop _ _ _ Sh) Hv Li E') as (g2 & E2 & _ & Li').
    rewrite E in E2. injection E2 as <-.
    destruct (genetic_held next fit holds l Vnew Vkeep Vmod cutoff mu s sw n (F (g_core g)) (g_ben g) (gmap pstrip g') r Hcut H2c Sh Sq Hmu Hv Lb He S0 E' Po) as (He' & K).
    constructor; [exact Li'| |exact He'|exact So]. eapply gh_step; eauto.
Qed.
Lemma pg_step_returns g mu s sw : genetic_run_on ea (new_pparallel n pow2) cutoff n l g -> mutator_ok mu -> valid_schedule (n - cutoff) s -> swaps_within n sw ->
  (exists g' r, genetic_step ea cutoff mu s sw g = Some (g', r)) \/
  exists b pts, (b < cutoff)%nat /\
    ((exists i, (cutoff <= i < n - cutoff)%nat /\ b = (i mod cutoff)%nat /\ pts = fst (mu i (nth b (members (g_core g)) []))) \/
     (exists ms, (forall m, In m ms -> exists i, (cutoff <= i < n - cutoff)%nat /\ b = (i mod cutoff)%nat /\ In m (snd (mu i (nth b (members (g_core g)) [])))) /\
        NoDup (map m_idx ms) /\ apply_muts ms (nth b (members (g_core g)) []) = Some pts)) /\
    (cell_comparison_panics fi pts \/ exists j, (j < cutoff)%nat /\ cell_comparison_panics fi (nth j (members (g_core g)) [] ++ pts)).
Proof.
  intros R Hmu Hv Hw. destruct (pg_run_inv g R) as [Li H He S0]. destruct (genetic_history_shape ev cutoff n l (gmap pstrip g) Hcut H) as (Sh & Sq & Lb & _).
  destruct (genetic_step_total next fit holds l Vnew Vkeep Vmod Vfnew Vfmod Vtnew Vtmod (vor_fit im bs fi srt Him SO l) cutoff mu s sw n (F (g_core g)) (g_ben g) Hcut H2c Sh Sq Hmu Hv (within_range n sw Hw) Lb He S0) as [(k & r & E)|[(i & Hi & Fa)|(b & ms & pts & Hb & Hm & Nd & Ea & Fa)]].
  - destruct (fwd_genetic_step ea ev pstrip (qlive fi N) n Qc Qu Qp Qb Qs cutoff mu s sw g k r ltac:(lia) (sh_pop _ _ _ Sh) Hv Li E) as (g2 & E2 & _ & _). left. eauto.
  - right. apply fails_among in Fa. exists (i mod cutoff)%nat, (fst (mu i (nth (i mod cutoff) (members (g_core g)) []))). split; [apply Nat.mod_upper_bound, Hcut|]. split; [left; exists i; auto|].
    replace ((i - cutoff) mod cutoff)%nat with (i mod cutoff)%nat in Fa; [exact Fa|]. replace i with ((i - cutoff) + 1 * cutoff)%nat at 1 by lia. apply Nat.mod_add, Hcut.
  - right. apply fails_among in Fa. exists b, pts. split; [exact Hb|]. split; [right; exists ms|exact Fa]. split; [|split; [exact Nd|exact Ea]].
    intros m I. destruct (Hm m I) as (i & A & B & C). exists i. split; [exact A|]. split; [symmetry; exact B|exact C].
Qed.
Lemma pg_new_returns groups s sw : point_groups n l groups -> valid_schedule (n - cutoff) s -> swaps_within n sw ->
  (exists g r, new_genetic ea cutoff groups (new_pparallel n pow2) s sw = Some (g, r)) \/ exists i, (i < n - cutoff)%nat /\ cell_comparison_panics fi (nth i groups []).
Proof.
  intros [L Gf] Hv Hw. destruct (new_pparallel_ok fi n pow2) as [O St].
  destruct (new_genetic_total next fit holds l Vnew Vkeep Vmod Vfnew Vfmod Vtnew Vtmod (vor_fit im bs fi srt Him SO l) an_ivor cutoff groups s sw n Hcut ltac:(lia) L Gf Hv (within_range n sw Hw)) as [(k & r & E)|(i & Hi & Fa)].
  - rewrite <- St in E. destruct (fwd_new_genetic ea ev pstrip (qlive fi N) n Qc Qu Qp Qs cutoff groups (new_pparallel n pow2) s sw k r Hv (new_qlive fi n pow2) E) as (g2 & E2 & _ & _). left. eauto.
  - right. exists i. split; [exact Hi|]. apply (vpanic_among _ _ Fa). auto.
Qed.
End Prog.

(** * C69 *)
(** The diagram that Calculate makes first is built by inserting the points. *)
Lemma next_history fi srt hsrt base pts log : next_vor fi srt hsrt None base pts log = iv_history srt hsrt (fi_w fi) (fi_h fi) (map MAdd (map (mut_point fi) pts)).
Proof.
  unfold next_vor, iv_history. destruct (new_voronoi (fi_w fi) (fi_h fi)) as [v|]; [|reflexivity]. revert v. induction pts as [|p pts IH]; intros v; [reflexivity|]. cbn [foldM map iv_step].
  destruct (iv_insert srt v (mut_point fi p)) as [v'|]; [apply IH|reflexivity].
Qed.
Lemma some_not_none {A} (o : option A) : (exists x, o = Some x) -> o <> None. Proof. intros (x & ->). discriminate. Qed.

(** NewSimple panics exactly if inserting the points of one of the groups does. *)
Theorem C69_new_simple : forall im bs fi srt hsrt cutoff n l pow2 groups s sw, usual_program im bs fi srt hsrt cutoff n l pow2 -> point_groups n l groups -> valid_schedule n s -> swaps_within n sw ->
  new_simple (pparallel fi srt hsrt) groups (new_pparallel n pow2) s sw = None <->
  exists i, (i < n)%nat /\ iv_history srt hsrt (fi_w fi) (fi_h fi) (map MAdd (map (mut_point fi) (nth i groups []))) = None.
Proof.
  intros im bs fi srt hsrt cutoff n l pow2 groups s sw (Him & SO & Hh & Hl & Hc & Hk & Hn) [L Gf] Hv Hw. destruct (new_pparallel_ok fi n pow2) as [O St]. pose proof (im_usual im bs fi Him) as U.
  pose proof (vor_new fi srt hsrt l U Hl) as V1. pose proof (vor_keep fi srt hsrt) as V2. pose proof (vor_mod fi srt hsrt l U (proj1 Hh) (proj2 Hh) Hl) as V3. pose proof (vor_fine fi srt cutoff l SO U Hc) as Fine.
  split.
  - intros E.
    assert (Tn : forall base pts log, okp l pts -> (exists d, next_vor fi srt hsrt None base pts log = Some d) \/ next_vor fi srt hsrt None None pts [] = None)
      by (intros base pts log _; rewrite !next_history; destruct (iv_history _ _ _ _ _); eauto).
    pose proof (Vtmod im bs fi srt hsrt l Him Hh Hl) as Tm.
    destruct (new_simple_total (next_vor fi srt hsrt) (fit2 fi) (vor_of fi srt) l V1 V2 V3 (fun pts => next_vor fi srt hsrt None None pts [] = None) (Vfmod fi srt) Tn Tm (vor_fit im bs fi srt Him SO l) an_ivor groups s sw n Hn L Gf Hv (within_range n sw Hw))
      as [(k & r & E')|(i & Hi & Fa)].
    + exfalso. rewrite <- St in E'. pose proof (pow_range pow2 Hk) as HN.
      destruct (fwd_new_simple (pparallel fi srt hsrt) (keep_ev (next_vor fi srt hsrt) (fit2 fi)) pstrip (qlive fi (Z.of_nat (Nat.pow 2 pow2))) n (qlive_calc fi srt hsrt _ HN) (qlive_upd fi srt hsrt _ HN) (qlive_prep fi srt hsrt _ HN) (qlive_swap fi srt hsrt _ n HN) groups (new_pparallel n pow2) s sw k r Hv (new_qlive fi n pow2) E') as (c2 & E2 & _ & _).
      congruence.
    + exists i. split; [exact Hi|]. rewrite next_history in Fa. exact Fa.
  - intros (i & Hi & Ei). destruct (new_simple (pparallel fi srt hsrt) groups (new_pparallel n pow2) s sw) as [[c r]|] eqn:E; [|reflexivity]. exfalso.
    destruct (new_simple_simh (next_vor fi srt hsrt) (fit2 fi) (vor_of fi srt) l V1 V2 V3 (pparallel fi srt hsrt) pstrip (ppar_ok fi) small_polys Fine (calc2_sim fi srt hsrt) (pupd_sim fi srt hsrt) (pprep_sim fi srt hsrt) (pswap_sim fi srt hsrt) an_ivor groups (new_pparallel n pow2) s sw n c r St L Gf Hv O E) as [_ E'].
    rewrite St in E'. destruct (new_simple_calc (next_vor fi srt hsrt) (fit2 fi) (vor_of fi srt) l V1 V2 V3 an_ivor groups s sw n _ L Gf Hv E' i Hi) as (d & Ed). rewrite next_history in Ed. congruence.
Qed.
Print Assumptions C69_new_simple.
Theorem C69_new_genetic : forall im bs fi srt hsrt cutoff n l pow2 groups s sw, usual_program im bs fi srt hsrt cutoff n l pow2 -> (cutoff < n)%nat -> point_groups n l groups -> valid_schedule (n - cutoff) s -> swaps_within n sw ->
  new_genetic (pparallel fi srt hsrt) cutoff groups (new_pparallel n pow2) s sw = None <->
  exists i, (i < n - cutoff)%nat /\ iv_history srt hsrt (fi_w fi) (fi_h fi) (map MAdd (map (mut_point fi) (nth i groups []))) = None.
Proof.
  intros im bs fi srt hsrt cutoff n l pow2 groups s sw (Him & SO & Hh & Hl & Hc & Hk & Hn) Hcn [L Gf] Hv Hw. destruct (new_pparallel_ok fi n pow2) as [O St]. pose proof (im_usual im bs fi Him) as U.
  pose proof (vor_new fi srt hsrt l U Hl) as V1. pose proof (vor_keep fi srt hsrt) as V2. pose proof (vor_mod fi srt hsrt l U (proj1 Hh) (proj2 Hh) Hl) as V3. pose proof (vor_fine fi srt cutoff l SO U Hc) as Fine.
  split.
  - intros E.
    assert (Tn : forall base pts log, okp l pts -> (exists d, next_vor fi srt hsrt None base pts log = Some d) \/ next_vor fi srt hsrt None None pts [] = None)
      by (intros base pts log _; rewrite !next_history; destruct (iv_history _ _ _ _ _); eauto).
    pose proof (Vtmod im bs fi srt hsrt l Him Hh Hl) as Tm.
    destruct (new_genetic_total (next_vor fi srt hsrt) (fit2 fi) (vor_of fi srt) l V1 V2 V3 (fun pts => next_vor fi srt hsrt None None pts [] = None) (Vfmod fi srt) Tn Tm (vor_fit im bs fi srt Him SO l) an_ivor cutoff groups s sw n Hc Hcn L Gf Hv (within_range n sw Hw))
      as [(k & r & E')|(i & Hi & Fa)].
    + exfalso. rewrite <- St in E'. pose proof (pow_range pow2 Hk) as HN.
      destruct (fwd_new_genetic (pparallel fi srt hsrt) (keep_ev (next_vor fi srt hsrt) (fit2 fi)) pstrip (qlive fi (Z.of_nat (Nat.pow 2 pow2))) n (qlive_calc fi srt hsrt _ HN) (qlive_upd fi srt hsrt _ HN) (qlive_prep fi srt hsrt _ HN) (qlive_swap fi srt hsrt _ n HN) cutoff groups (new_pparallel n pow2) s sw k r Hv (new_qlive fi n pow2) E') as (c2 & E2 & _ & _).
      congruence.
    + exists i. split; [exact Hi|]. rewrite next_history in Fa. exact Fa.
  - intros (i & Hi & Ei). destruct (new_genetic (pparallel fi srt hsrt) cutoff groups (new_pparallel n pow2) s sw) as [[g r]|] eqn:E; [|reflexivity]. exfalso.
    destruct (new_genetic_simh (next_vor fi srt hsrt) (fit2 fi) (vor_of fi srt) l V1 V2 V3 (pparallel fi srt hsrt) pstrip (ppar_ok fi) small_polys Fine (calc2_sim fi srt hsrt) (pupd_sim fi srt hsrt) (pprep_sim fi srt hsrt) (pswap_sim fi srt hsrt) an_ivor cutoff groups (new_pparallel n pow2) s sw n g r St L Gf Hv O E) as [_ E'].
    rewrite St in E'. destruct (new_genetic_calc (next_vor fi srt hsrt) (fit2 fi) (vor_of fi srt) l V1 V2 V3 an_ivor cutoff groups s sw n _ L Gf Hv E' i Hi) as (d & Ed). rewrite next_history in Ed. congruence.
Qed.
Print Assumptions C69_new_genetic.

(** A Step panics only if two vertices of a Voronoi cell of pixels of one of its children,
    and perhaps of a member it keeps, cannot be compared. *)
Theorem C69_step_panic : forall im bs fi srt hsrt cutoff n l pow2 c mu s sw, usual_program im bs fi srt hsrt cutoff n l pow2 -> (cutoff <= n)%nat ->
  polygon_program fi srt hsrt cutoff n l pow2 c -> mutator_ok mu -> valid_schedule n s -> swaps_within n sw ->
  simple_step (pparallel fi srt hsrt) cutoff mu s sw c = None ->
  exists i, (cutoff <= i < n)%nat /\ let child := fst (mu i (nth ((i - cutoff) mod cutoff) (members c) [])) in
    cell_comparison_panics fi child \/ exists j, (j < cutoff)%nat /\ cell_comparison_panics fi (nth j (members c) [] ++ child).
Proof.
  intros im bs fi srt hsrt cutoff n l pow2 c mu s sw (Him & SO & Hh & Hl & Hc & Hk & Hn) Hcn R Hmu Hv Hw E.
  destruct (pstep_returns im bs fi srt hsrt cutoff n l pow2 Him SO Hh Hl Hc Hk c mu s sw Hn Hcn R Hmu Hv Hw) as [(c' & r & E')|K]; [congruence|exact K].
Qed.
Print Assumptions C69_step_panic.
(** ... and, in the modified genetic algorithm, of a member that combines mutations of the
    children of one member, while the fitnesses are positive. *)
Theorem C69_genetic_step_panic : forall im bs fi srt hsrt cutoff n l pow2 g mu s sw, usual_program im bs fi srt hsrt cutoff n l pow2 -> (2 * cutoff <= n)%nat ->
  genetic_run_on (pparallel fi srt hsrt) (new_pparallel n pow2) cutoff n l g -> mutator_ok mu -> valid_schedule (n - cutoff) s -> swaps_within n sw ->
  genetic_step (pparallel fi srt hsrt) cutoff mu s sw g = None ->
  exists b pts, (b < cutoff)%nat /\
    ((exists i, (cutoff <= i < n - cutoff)%nat /\ b = (i mod cutoff)%nat /\ pts = fst (mu i (nth b (members (g_core g)) []))) \/
     (exists ms, (forall m, In m ms -> exists i, (cutoff <= i < n - cutoff)%nat /\ b = (i mod cutoff)%nat /\ In m (snd (mu i (nth b (members (g_core g)) [])))) /\
        NoDup (map m_idx ms) /\ apply_muts ms (nth b (members (g_core g)) []) = Some pts)) /\
    (cell_comparison_panics fi pts \/ exists j, (j < cutoff)%nat /\ cell_comparison_panics fi (nth j (members (g_core g)) [] ++ pts)).
Proof.
  intros im bs fi srt hsrt cutoff n l pow2 g mu s sw (Him & SO & Hh & Hl & Hc & Hk & Hn) H2 R Hmu Hv Hw E.
  destruct (pg_step_returns im bs fi srt hsrt cutoff n l pow2 Him SO Hh Hl Hc Hk H2 g mu s sw R Hmu Hv Hw) as [(g' & r & E')|K]; [congruence|exact K].
Qed.
Print Assumptions C69_genetic_step_panic.

(** Every fitness is a number, the fitness of the Voronoi cells of the member's points. *)
Theorem C69_cells : forall im bs fi srt hsrt cutoff n l pow2 c, usual_program im bs fi srt hsrt cutoff n l pow2 -> polygon_program fi srt hsrt cutoff n l pow2 c ->
  forall i, (i < n)%nat -> is_finite (nth i (c_fits c) f0) = true /\ evaluated_cells fi (c_ev c) i (nth i (members c) []) (nth i (c_fits c) f0).
Proof.
  intros im bs fi srt hsrt cutoff n l pow2 c (Him & SO & Hh & Hl & Hc & Hk & Hn) R i Hi. split.
  - destruct (pprogram_inv im bs fi srt hsrt cutoff n l pow2 Him SO Hh Hl Hc Hk c R) as [_ _ _ Fi Le]. rewrite Forall_forall in Fi. apply Fi, nth_In. lia.
  - exact (pprogram_cells im bs fi srt hsrt cutoff n l pow2 Him SO Hh Hl Hc Hk c i R Hi).
Qed.
Print Assumptions C69_cells.
(** The best fitness is a number, the largest, and never gets worse. *)
Theorem C69_best : forall im bs fi srt hsrt cutoff n l pow2 c mu s sw c' r, usual_program im bs fi srt hsrt cutoff n l pow2 -> (cutoff <= n)%nat ->
  polygon_program fi srt hsrt cutoff n l pow2 c -> mutator_ok mu -> valid_schedule n s ->
  simple_step (pparallel fi srt hsrt) cutoff mu s sw c = Some (c', r) -> sort_sorts (c_fits c') ->
  is_finite (stats_best c) = true /\ is_finite (stats_best c') = true /\ not_above (stats_best c) (stats_best c') /\ forall f, In f (c_fits c') -> not_above f (stats_best c').
Proof.
  intros im bs fi srt hsrt cutoff n l pow2 c mu s sw c' r (Him & SO & Hh & Hl & Hc & Hk & Hn) Hcn R Hmu Hv E So. pose proof (pprogram_inv im bs fi srt hsrt cutoff n l pow2 Him SO Hh Hl Hc Hk c R) as I.
  destruct (pstep_inv im bs fi srt hsrt cutoff n l pow2 Him SO Hh Hl Hc Hk c mu s sw c' r I Hmu Hv E) as (_ & _ & Fi & Le & I' & K).
  pose proof (So (finites_num _ Fi)) as Sd. specialize (I' Sd).
  destruct (simple_evaluated _ cutoff n l _ Hc (pp_hist _ _ _ _ _ _ _ _ I)) as (_ & _ & B1 & _).
  destruct (simple_evaluated _ cutoff n l _ Hc (pp_hist _ _ _ _ _ _ _ _ I')) as (_ & _ & B2 & _).
  unfold stats_best. change (c_bestfit c = nth 0 (c_fits c) f0) in B1. change (c_bestfit c' = nth 0 (c_fits c') f0) in B2. rewrite B1, B2.
  pose proof (pp_len _ _ _ _ _ _ _ _ I) as L1. pose proof (pp_fin _ _ _ _ _ _ _ _ I) as F1.
  assert (T : forall f, In f (c_fits c') -> not_above f (nth 0 (c_fits c') f0)) by (intros f Hf; apply head_above; [exact Sd|exact Hf|apply finites_num, Fi]).
  split; [rewrite Forall_forall in F1; apply F1, nth_In; lia|]. split; [rewrite Forall_forall in Fi; apply Fi, nth_In; lia|]. split; [apply T, K; lia|exact T].
Qed.
Print Assumptions C69_best.

(** ... and so do the constructors: only if two vertices of a Voronoi cell of pixels of one
    group cannot be compared. *)
Theorem C69_new_panic : forall im bs fi srt hsrt cutoff n l pow2 groups s sw, usual_program im bs fi srt hsrt cutoff n l pow2 -> point_groups n l groups -> valid_schedule n s -> swaps_within n sw ->
  new_simple (pparallel fi srt hsrt) groups (new_pparallel n pow2) s sw = None -> exists i, (i < n)%nat /\ cell_comparison_panics fi (nth i groups []).
Proof.
  intros im bs fi srt hsrt cutoff n l pow2 groups s sw (Him & SO & Hh & Hl & Hc & Hk & Hn) G Hv Hw E.
  destruct (pnew_returns im bs fi srt hsrt n l pow2 Him SO Hh Hl Hk groups s sw Hn G Hv Hw) as [(c & r & E')|K]; [congruence|exact K].
Qed.
Print Assumptions C69_new_panic.

(** If NewSimple returns, some swaps put the fitnesses in order. *)
Lemma pnew_sorts im bs fi srt hsrt cutoff n l pow2 groups s sw0 c0 r0 : usual_program im bs fi srt hsrt cutoff n l pow2 -> point_groups n l groups -> valid_schedule n s ->
  swaps_within n sw0 -> new_simple (pparallel fi srt hsrt) groups (new_pparallel n pow2) s sw0 = Some (c0, r0) ->
  exists sw c r, swaps_within n sw /\ new_simple (pparallel fi srt hsrt) groups (new_pparallel n pow2) s sw = Some (c, r) /\ polygon_program fi srt hsrt cutoff n l pow2 c.
Proof.
  intros U G Hv W0 E0. pose proof (C69_new_simple im bs fi srt hsrt cutoff n l pow2 groups s) as Ex.
  assert (Re : forall sw, swaps_within n sw -> exists c r, new_simple (pparallel fi srt hsrt) groups (new_pparallel n pow2) s sw = Some (c, r)).
  { intros sw W. destruct (new_simple (pparallel fi srt hsrt) groups (new_pparallel n pow2) s sw) as [[c r]|] eqn:E; [eauto|].
    exfalso. apply (proj1 (Ex sw U G Hv W)) in E. apply (proj2 (Ex sw0 U G Hv W0)) in E. congruence. }
  destruct U as (Him & SO & Hh & Hl & Hc & Hk & Hn).
  destruct (Re [] ltac:(intros ? [])) as (c1 & r1 & E1).
  destruct (pnew_inv im bs fi srt hsrt cutoff n l pow2 Him SO Hh Hl Hc Hk groups s [] c1 r1 G Hv E1) as (_ & _ & Fi & Le & _).
  destruct (sorting_swaps (c_fits c1) (finites_num _ Fi)) as (sw & W1 & K). assert (W : swaps_within n sw) by (rewrite <- Le; exact W1).
  destruct (Re sw W) as (c2 & r2 & E2). exists sw, c2, r2. split; [exact W|]. split; [exact E2|]. eapply pg_new; [exact G|exact Hv|exact E2|]. intros _. apply K.
  unfold new_simple in E1, E2. destruct (init_core groups (new_pparallel n pow2)) as [c3|]; [|discriminate]. destruct (simple_calc (pparallel fi srt hsrt) s c3) as [[c4 r4]|]; [|discriminate].
  destruct (update_fitnesses (pparallel fi srt hsrt) [] c4) as [c5|] eqn:E5; [|discriminate]. destruct (update_fitnesses (pparallel fi srt hsrt) sw c4) as [c6|] eqn:E6; [|discriminate].
  apply update_fits in E5, E6. cbn [option_map] in E1, E2. injection E1 as <- <-. injection E2 as <- <-. cbn [swap_all] in E5. injection E5 as <-. exact E6.
Qed.

(** * A picture on which it panics *)
Definition black (w h : Z) : idata := IData w h (fun _ _ => Some (RGB f0 f0 f0)).
Lemma black_function w h : usual_size w h -> exists fi, image_function (black w h) 1 fi /\ fi_w fi = w /\ fi_h fi = h.
Proof.
  intros U. assert (G : good_image (black w h)).
  { unfold usual_size in U. split; [cbn; lia|]. split; [cbn; lia|]. intros x y _ _. exists (RGB f0 f0 f0). split; [reflexivity|]. unfold rgb_unit. cbn [cr cg cb]. assert (in_unit f0) by (split; [reflexivity|]; cbn; lra). auto. }
  set (fuel := Z.to_nat (2 ^ 56)). assert (Hf : 2 ^ 56 <= Z.of_nat fuel) by (unfold fuel; rewrite Z2Nat.id; lia). clearbody fuel.
  destruct (from_image_total (black w h) G) as (t & Et & _). unfold usual_size in U.
  destruct (from_imageN_spec (black w h) 1 t G ltac:(lia) ltac:(cbn; lia) ltac:(cbn; lia) Et) as (tn & En & _).
  assert (E : exists fi, new_fimg fuel (black w h) 1 = Some fi) by (unfold new_fimg; rewrite Et, En; eauto). destruct E as (fi & E). exists fi.
  destruct (new_fimg_fields _ _ _ _ E) as (W & H & _). split; [|split; [exact W|exact H]].
  split; [exact G|]. split; [unfold usual_size; exact U|]. split; [lia|]. split; [cbn; lia|]. split; [cbn; lia|]. exists fuel. split; assumption.
Qed.
Lemma panic_mut : (map (fun p => create_point (nx p) (ny p) 1000 1000) (map (at_pixel 1000 1000) panic_pixels)) = panic_pixels.
Proof. vm_compute. reflexivity. Qed.
Lemma panic_groups n : point_groups n 4 (repeat (map (at_pixel 1000 1000) panic_pixels) n).
Proof.
  split; [apply repeat_length|]. apply Forall_forall. intros g Hg. apply repeat_spec in Hg. subst g. split; [reflexivity|].
  apply pixels_unit; [exact size_1000|]. repeat constructor; cbn [px py]; lia.
Qed.
Lemma panic_next fi : fi_w fi = 1000 -> fi_h fi = 1000 ->
  iv_history slice_sort insertion_sort (fi_w fi) (fi_h fi) (map MAdd (map (mut_point fi) (map (at_pixel 1000 1000) panic_pixels))) = None.
Proof.
  intros W H. assert (M : map (mut_point fi) (map (at_pixel 1000 1000) panic_pixels) = panic_pixels) by (etransitivity; [|exact panic_mut]; apply map_ext; intros p; unfold mut_point; rewrite W, H; reflexivity).
  rewrite M, W, H. apply is_none_spec, panic_iv.
Qed.
(** A run over the polygon functions need not return: for every picture of 1000 by 1000
    pixels there are four points on which NewSimple panics, with every number of members
    and every schedule. *)
Theorem C69_panic_refuted : exists pts srt hsrt, Forall pt_in_unit pts /\ sorter_ok srt /\ hull_sort hsrt /\
  (exists im bs fi, image_function im bs fi /\ i_w im = 1000 /\ i_h im = 1000) /\
  forall im bs fi n pow2 s sw, image_function im bs fi -> i_w im = 1000 -> i_h im = 1000 -> (1 <= pow2 <= 62)%nat -> (0 < n)%nat -> valid_schedule n s -> swaps_within n sw ->
    new_simple (pparallel fi srt hsrt) (repeat pts n) (new_pparallel n pow2) s sw = None.
Proof.
  exists (map (at_pixel 1000 1000) panic_pixels), slice_sort, insertion_sort.
  split; [apply pixels_unit; [exact size_1000|]; repeat constructor; cbn [px py]; lia|]. split; [exact slice_sort_ok|]. split; [exact insertion_hull_sort|]. split.
  { destruct (black_function 1000 1000 size_1000) as (fi & A & _). exists (black 1000 1000), 1, fi. split; [exact A|]. split; reflexivity. }
  intros im bs fi n pow2 s sw Him W H Hk Hn Hv Hw.
  apply (C69_new_simple im bs fi slice_sort insertion_sort 1 n 4 pow2 _ s sw); try assumption.
  - split; [exact Him|]. split; [exact slice_sort_ok|]. split; [exact insertion_hull_sort|]. split; [lia|]. split; [discriminate|]. split; assumption.
  - apply panic_groups.
  - exists 0%nat. split; [exact Hn|]. destruct Him as (_ & _ & _ & _ & _ & fuel & _ & E). destruct (new_fimg_fields _ _ _ _ E) as (W' & H' & _).
    destruct n as [|n]; [lia|]. cbn [repeat nth]. apply panic_next; congruence.
Qed.
Print Assumptions C69_panic_refuted.

(** * A program that returns: a 6x6 image, two members of five points *)
Definition is_some {A} (o : option A) : bool := match o with None => false | Some _ => true end.
Lemma pts3_iv : is_some (iv_history slice_sort insertion_sort 6 6 (map MAdd (map (fun p => create_point (nx p) (ny p) 6 6) pts3))) = true.
Proof. vm_compute. reflexivity. Qed.
Lemma pts3_groups : point_groups 2 5 (repeat pts3 2).
Proof. split; [reflexivity|]. apply (pts_ok pts3). vm_compute. reflexivity. Qed.
Example C69_case : exists d fi c0, to_data waves = Some d /\ usual_program (as_idata d) 2 fi slice_sort insertion_sort 1 2 5 3 /\ polygon_program fi slice_sort insertion_sort 1 2 5 3 c0.
Proof.
  destruct waves_function as (d & fi & E & Him). assert (U : usual_program (as_idata d) 2 fi slice_sort insertion_sort 1 2 5 3).
  { split; [exact Him|]. split; [exact slice_sort_ok|]. split; [exact insertion_hull_sort|]. split; [lia|]. split; [discriminate|]. split; lia. }
  destruct (to_data_spec waves ltac:(cbn; lia) ltac:(cbn; lia) waves_conforming) as (d' & E' & W & H & _). rewrite E in E'. injection E' as <-. cbn [g_maxx g_maxy waves] in W, H.
  destruct Him as (_ & _ & _ & _ & _ & fuel & _ & Ef). destruct (new_fimg_fields _ _ _ _ Ef) as (W' & H' & _). change (i_w (as_idata d)) with (d_w d) in W'. change (i_h (as_idata d)) with (d_h d) in H'.
  assert (Sw : swaps_within 2 []) by (intros ? []). pose proof (C69_new_simple _ _ _ _ _ _ _ _ _ (repeat pts3 2) ex_sched [] U pts3_groups ex_sched_ok Sw) as X.
  destruct (new_simple (pparallel fi slice_sort insertion_sort) (repeat pts3 2) (new_pparallel 2 3) ex_sched []) as [[c r]|] eqn:En.
  - destruct (pnew_sorts _ _ _ _ _ _ _ _ _ _ _ _ _ _ U pts3_groups ex_sched_ok Sw En) as (sw & c0 & r0 & _ & _ & P). exists d, fi, c0. split; [exact E|]. split; [exact U|exact P].
  - exfalso. destruct (proj1 X eq_refl) as (i & Hi & K). assert (Ei : nth i (repeat pts3 2) [] = pts3) by (destruct i as [|[|i]]; [reflexivity|reflexivity|lia]). rewrite Ei in K.
    assert (M : map (mut_point fi) pts3 = map (fun p => create_point (nx p) (ny p) 6 6) pts3) by (apply map_ext; intros p; unfold mut_point; rewrite W', H', W, H; reflexivity).
    rewrite M, W', H', W, H in K. pose proof pts3_iv as T. rewrite K in T. discriminate T.
Qed.
