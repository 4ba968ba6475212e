(** C87: the program with all its triangulations in one memory, reached through the pointers
    Triangulation and Base, runs as the program in which every function has a triangulation of
    its own as a value; so what is proved about that one holds of this one. *)
From Coq Require Import ZArith List Bool Lia Arith Permutation.
From Flocq Require Import IEEE754.BinarySingleNaN.
From Verif Require Import GoNum M_Norm M_Slice M_Geom S_Geom M_Image S_Image M_Raster S_Raster S_Norm M_Delaunay S_Delaunay S_Remove M_Algo S_Algo M_Fitness S_Fitness S_Run S_Run2 M_Heap M_Cells M_Mem S_Mem M_MemRun S_MemRun.
From Verif Require Import L_Slice L_Algo2 L_Sim L_Fwd L_Mem L_MemRun L_MemRun2 L_Tiles P_Delaunay P_Remove P_AlgoEx P_Fitness P_Run P_Run2 P_Mem.
Import ListNotations.
Local Open Scope nat_scope.

Lemma same_cmap (c : core xpar) (k : core par) : cmap plain c = k -> same_algo c k /\ plain (c_ev c) = c_ev k.
Proof. intros <-. repeat split. Qed.

(** C87: a run of simple over values that does not panic is a run in memory: same fitnesses in
    every generation, same members, same best member, and the memory shows the triangulations. *)
Theorem C87_simple : forall grow im srt cutoff n pow2 groups s sw l k rs, keeps_length srt -> schedules_ok n s l ->
  simple_run_of (parallel im srt) cutoff groups (new_parallel n pow2) s sw l = Some (k, rs) ->
  exists c, simple_run_of (xparallel grow im srt) cutoff groups (new_xpar n pow2) s sw l = Some (c, rs) /\ same_algo c k /\ plain (c_ev c) = c_ev k.
Proof.
  intros grow im srt cutoff n pow2 groups s sw l k rs KL [V VL]. unfold simple_run_of. rewrite <- (plain_new n pow2). destruct (new_simple (parallel im srt) groups (plain (new_xpar n pow2)) s sw) as [[k0 r0]|] eqn:E; [|discriminate].
  destruct (xnew_simple grow im srt KL n groups (new_xpar n pow2) s sw k0 r0 V (new_xok n pow2) E) as (c0 & -> & <- & O). clear E. revert VL. generalize [r0]. revert c0 O.
  induction l as [|[[mu s1] sw1] l IH]; intros c0 O rs0 VL; cbn [simple_steps_of fst snd].
  - intros [= <- <-]. exists c0. split; [reflexivity|]. apply same_cmap. reflexivity.
  - inversion VL as [|? ? V1 V2]; subst. cbn [fst snd] in V1. destruct (simple_step (parallel im srt) cutoff mu s1 sw1 (cmap plain c0)) as [[k1 r1]|] eqn:E; [|discriminate].
    destruct (xsimple_step grow im srt KL n cutoff mu s1 sw1 c0 k1 r1 V1 O E) as (c1 & -> & <- & O1). apply IH; assumption.
Qed.
Print Assumptions C87_simple.

(** C87: the same for modifiedGenetic. *)
Theorem C87_genetic : forall grow im srt cutoff pow2 groups s sw l k rs, let n := length groups in keeps_length srt -> cutoff <= n -> schedules_ok (n - cutoff) s l ->
  genetic_run_of (parallel im srt) cutoff groups (new_parallel n pow2) s sw l = Some (k, rs) ->
  exists g, genetic_run_of (xparallel grow im srt) cutoff groups (new_xpar n pow2) s sw l = Some (g, rs) /\ same_algo (g_core g) (g_core k) /\ g_ben g = g_ben k /\ plain (c_ev (g_core g)) = c_ev (g_core k).
Proof.
  intros grow im srt cutoff pow2 groups s sw l k rs n KL Hc [V VL]. unfold genetic_run_of. rewrite <- (plain_new n pow2). destruct (new_genetic (parallel im srt) cutoff groups (plain (new_xpar n pow2)) s sw) as [[k0 r0]|] eqn:E; [|discriminate].
  destruct (xnew_genetic grow im srt KL n cutoff groups (new_xpar n pow2) s sw k0 r0 V (new_xok n pow2) E) as (g0 & E0 & <- & O). rewrite E0. pose proof (new_both _ _ _ _ _ _ _ _ E0) as B. fold n in B. clear E E0. revert VL. generalize [r0]. revert g0 O B.
  induction l as [|[[mu s1] sw1] l IH]; intros g0 O B rs0 VL; cbn [genetic_steps_of fst snd].
  - intros [= <- <-]. exists g0. split; [reflexivity|]. split; [repeat split|]. split; reflexivity.
  - inversion VL as [|? ? V1 V2]; subst. cbn [fst snd] in V1. destruct (genetic_step (parallel im srt) cutoff mu s1 sw1 (gmap plain g0)) as [[k1 r1]|] eqn:E; [|discriminate].
    destruct (xgenetic_step grow im srt KL n cutoff mu s1 sw1 g0 k1 r1 Hc (proj1 B) V1 O E) as (g1 & E1 & <- & O1). rewrite E1. apply IH; [exact O1|exact (genetic_both _ _ _ _ _ _ _ _ _ B E1)|exact V2].
Qed.
Print Assumptions C87_genetic.

Lemma hull_sort_keeps srt : hull_sort srt -> keeps_length srt.
Proof. intros [P _] p l l' E. apply P, Permutation_length in E. symmetry. exact E. Qed.

Section Program.
Context (grow : forall A : Type, list (list A) -> nat) (im : idata) (bs : Z) (fi : fimg) (srt : point -> list point -> option (list point)) (cutoff n l pow2 : nat).
Hypothesis (Him : image_function im bs fi) (Hs : hull_sort srt) (Hl : (Z.of_nat l <= 32765)%Z) (Hc : cutoff <> 0) (Hk : 1 <= pow2 <= 62).

Lemma mem_plain c : cutoff <= n -> 0 < n -> mem_program grow fi srt cutoff n l pow2 c -> xok (c_ev c) /\ simple_program fi srt cutoff n l pow2 (cmap plain c).
Proof.
  intros Hcn Hn R. pose proof (hull_sort_keeps srt Hs) as KL. induction R as [groups s sw c r G V W E So|c mu s sw c' r R IH Hmu V W E So].
  - destruct (C60_new_simple im bs fi srt n l pow2 groups s sw Him Hs Hl Hk Hn G V W) as (k & r' & K). pose proof K as K'. rewrite <- (plain_new n pow2) in K'.
    destruct (xnew_simple grow fi srt KL n groups (new_xpar n pow2) s sw k r' V (new_xok n pow2) K') as (c1 & E1 & P & O). assert (c1 = c) by congruence. subst c1. split; [exact O|]. rewrite P. eapply sp_new; [exact G|exact V|exact K|]. rewrite <- P. exact So.
  - destruct IH as [O SP]. destruct (C60_simple_step im bs fi srt cutoff n l pow2 _ mu s sw Him Hs Hl Hc Hcn Hk Hn SP Hmu V W) as (k & r' & K).
    destruct (xsimple_step grow fi srt KL n cutoff mu s sw c k r' V O K) as (c1 & E1 & P & O1). assert (c1 = c') by congruence. subst c1. split; [exact O1|]. rewrite P. eapply sp_step; [exact SP|exact Hmu|exact V|exact K|]. rewrite <- P. exact So.
Qed.
Lemma keeps_mem p i pts f : xok p -> keeps_delaunay fi (plain p) i pts f -> mem_delaunay fi p i pts f.
Proof.
  intros O (id & t & d & A & T & B & D & F). rewrite at_plain in A. destruct (x_at_pos p i) as [[id' f']|] eqn:X; [|discriminate]. cbn [option_map fst snd] in A. injection A as -> <-. pose proof (at_fun p i id f' X) as E.
  unfold plain_fun in T, B. cbn [tf_tri tf_base] in T, B. destruct (xf_tri f') as [k|] eqn:TF; [|discriminate]. rewrite views_nth in T. destruct (nth_error (w_all (xp_pool p)) k) as [x|] eqn:W; [|discriminate]. cbn [option_map] in T. injection T as <-.
  exists id, f', k, x. split; [unfold x_at_pos in X; destruct (nth_error (xp_order p) i) as [j|]; [|discriminate]; destruct (nth_error (xp_funs p) j); [|discriminate]; injection X as -> _; reflexivity|]. split; [exact E|]. split; [exact TF|]. split; [|auto].
  destruct (xf_base f') as [o|] eqn:BF; [|reflexivity]. destruct (xo_base p O id f' o E BF) as (j & g & Ej & Tg). rewrite (owner_of p o j g O Ej Tg) in B. discriminate.
Qed.

(** C87: in memory NewSimple and Step return. *)
Theorem C87_new_returns : 0 < n -> forall groups s sw, point_groups n l groups -> valid_schedule n s -> swaps_within n sw ->
  exists c r, new_simple (xparallel grow fi srt) groups (new_xpar n pow2) s sw = Some (c, r).
Proof.
  intros Hn groups s sw G V W. destruct (C60_new_simple im bs fi srt n l pow2 groups s sw Him Hs Hl Hk Hn G V W) as (k & r & K). rewrite <- (plain_new n pow2) in K.
  destruct (xnew_simple grow fi srt (hull_sort_keeps srt Hs) n groups (new_xpar n pow2) s sw k r V (new_xok n pow2) K) as (c & E & _). eauto.
Qed.
Theorem C87_step_returns : cutoff <= n -> 0 < n -> forall c mu s sw, mem_program grow fi srt cutoff n l pow2 c -> mutator_ok mu -> valid_schedule n s -> swaps_within n sw ->
  exists c' r, simple_step (xparallel grow fi srt) cutoff mu s sw c = Some (c', r).
Proof.
  intros Hcn Hn c mu s sw R Hmu V W. destruct (mem_plain c Hcn Hn R) as [O SP]. destruct (C60_simple_step im bs fi srt cutoff n l pow2 _ mu s sw Him Hs Hl Hc Hcn Hk Hn SP Hmu V W) as (k & r & K).
  destruct (xsimple_step grow fi srt (hull_sort_keeps srt Hs) n cutoff mu s sw c k r V O K) as (c' & E & _). eauto.
Qed.

(** C87: in memory every member has its Delaunay triangulation, and two functions never share one. *)
Theorem C87_delaunay : cutoff <= n -> 0 < n -> forall c, mem_program grow fi srt cutoff n l pow2 c ->
  (forall i, i < n -> mem_delaunay fi (c_ev c) i (nth i (members c) []) (nth i (c_fits c) f0)) /\
  (forall i j f g k, nth_error (xp_funs (c_ev c)) i = Some f -> nth_error (xp_funs (c_ev c)) j = Some g -> xf_tri f = Some k -> xf_tri g = Some k -> i = j).
Proof.
  intros Hcn Hn c R. destruct (mem_plain c Hcn Hn R) as [O SP]. split; [|apply (xo_own _ O)]. intros i Hi. apply keeps_mem; [exact O|]. exact (C59_simple im bs fi srt cutoff n l pow2 _ Him Hs Hl Hc Hk SP i Hi).
Qed.

(** C87: in memory the best fitness never gets worse. *)
Theorem C87_best : cutoff <= n -> 0 < n -> forall c mu s sw c' r, mem_program grow fi srt cutoff n l pow2 c -> mutator_ok mu -> valid_schedule n s -> swaps_within n sw ->
  simple_step (xparallel grow fi srt) cutoff mu s sw c = Some (c', r) -> sort_sorts (c_fits c') ->
  is_finite (stats_best c') = true /\ not_above (stats_best c) (stats_best c').
Proof.
  intros Hcn Hn c mu s sw c' r R Hmu V W E So. destruct (mem_plain c Hcn Hn R) as [O SP]. destruct (C60_simple_step im bs fi srt cutoff n l pow2 _ mu s sw Him Hs Hl Hc Hcn Hk Hn SP Hmu V W) as (k & r' & K).
  destruct (xsimple_step grow fi srt (hull_sort_keeps srt Hs) n cutoff mu s sw c k r' V O K) as (c1 & E1 & P & _). assert (c1 = c') by congruence. subst c1. assert (So' : sort_sorts (c_fits k)) by (rewrite <- P; exact So).
  destruct (C60_simple_best im bs fi srt cutoff n l pow2 _ mu s sw k r' Him Hs Hl Hc Hcn Hk Hn SP Hmu V K So') as (_ & F & N & _). rewrite <- P in F, N. split; [exact F|exact N].
Qed.

(** C87: the modified genetic algorithm in memory. *)
Lemma mem_gplain g : 2 * cutoff <= n -> mem_genetic grow fi srt cutoff n l pow2 g -> xok (c_ev (g_core g)) /\ both n (g_core g) /\ genetic_run fi srt cutoff n l pow2 (gmap plain g).
Proof.
  intros H2 R. pose proof (hull_sort_keeps srt Hs) as KL. induction R as [groups s sw g r G V W E So Po|g mu s sw g' r R IH Hmu V W E So Po].
  - destruct (C60_new_genetic im bs fi srt cutoff n l pow2 groups s sw Him Hs Hl Hc H2 Hk G V W) as (k & r' & K). pose proof K as K'. rewrite <- (plain_new n pow2) in K'.
    destruct (xnew_genetic grow fi srt KL n cutoff groups (new_xpar n pow2) s sw k r' V (new_xok n pow2) K') as (g1 & E1 & P & O). assert (g1 = g /\ r' = r) as [-> ->] by (split; congruence). split; [exact O|]. destruct G as [G1 G2]. split; [rewrite <- G1; exact (new_both _ _ _ _ _ _ _ _ E)|].
    rewrite P. eapply gr_new; [exact G1|exact G2|exact V|exact K| |exact Po]. rewrite <- P. exact So.
  - destruct IH as (O & B & SP). destruct (C60_genetic_step im bs fi srt cutoff n l pow2 _ mu s sw Him Hs Hl Hc H2 Hk SP Hmu V W) as (k & r' & K).
    destruct (xgenetic_step grow fi srt KL n cutoff mu s sw g k r' ltac:(lia) (proj1 B) V O K) as (g1 & E1 & P & O1). assert (g1 = g' /\ r' = r) as [-> ->] by (split; congruence). split; [exact O1|]. split; [exact (genetic_both _ _ _ _ _ _ _ _ _ B E)|].
    rewrite P. eapply gr_step; [exact SP|exact Hmu|exact V|exact K| |exact Po]. rewrite <- P. exact So.
Qed.
Theorem C87_new_genetic : 2 * cutoff <= n -> forall groups s sw, point_groups n l groups -> valid_schedule (n - cutoff) s -> swaps_within n sw ->
  exists g r, new_genetic (xparallel grow fi srt) cutoff groups (new_xpar n pow2) s sw = Some (g, r).
Proof.
  intros H2 groups s sw G V W. destruct (C60_new_genetic im bs fi srt cutoff n l pow2 groups s sw Him Hs Hl Hc H2 Hk G V W) as (k & r & K). rewrite <- (plain_new n pow2) in K.
  destruct (xnew_genetic grow fi srt (hull_sort_keeps srt Hs) n cutoff groups (new_xpar n pow2) s sw k r V (new_xok n pow2) K) as (g & E & _). eauto.
Qed.
Theorem C87_genetic_returns : 2 * cutoff <= n -> forall g mu s sw, mem_genetic grow fi srt cutoff n l pow2 g -> mutator_ok mu -> valid_schedule (n - cutoff) s -> swaps_within n sw ->
  exists g' r, genetic_step (xparallel grow fi srt) cutoff mu s sw g = Some (g', r).
Proof.
  intros H2 g mu s sw R Hmu V W. destruct (mem_gplain g H2 R) as (O & B & SP). destruct (C60_genetic_step im bs fi srt cutoff n l pow2 _ mu s sw Him Hs Hl Hc H2 Hk SP Hmu V W) as (k & r & K).
  destruct (xgenetic_step grow fi srt (hull_sort_keeps srt Hs) n cutoff mu s sw g k r ltac:(lia) (proj1 B) V O K) as (g' & E & _). eauto.
Qed.
Theorem C87_genetic_delaunay : 2 * cutoff <= n -> forall g, mem_genetic grow fi srt cutoff n l pow2 g -> let c := g_core g in
  (forall i, i < n -> mem_delaunay fi (c_ev c) i (nth i (members c) []) (nth i (c_fits c) f0) \/ nth i (c_fits c) f0 = f0) /\
  (forall i, i < cutoff -> mem_delaunay fi (c_ev c) i (nth i (members c) []) (nth i (c_fits c) f0)).
Proof.
  intros H2 g R c. destruct (mem_gplain g H2 R) as (O & B & SP). destruct (C59_genetic im bs fi srt cutoff n l pow2 _ Him Hs Hl Hc H2 Hk SP) as [K1 K2]. split; intros i Hi.
  - destruct (K1 i Hi) as [K|K]; [left; apply keeps_mem; [exact O|exact K]|right; exact K].
  - apply keeps_mem; [exact O|]. exact (K2 i Hi).
Qed.
End Program.
Print Assumptions C87_new_returns.
Print Assumptions C87_step_returns.
Print Assumptions C87_delaunay.
Print Assumptions C87_best.
Print Assumptions C87_new_genetic.
Print Assumptions C87_genetic_returns.
Print Assumptions C87_genetic_delaunay.

(** A run over a 6x6 image with two members of five points in memory: the fitnesses are those of
    the run over values, and the memory holds two triangulations. *)
Definition mem_sizes (p : xpar) : list (option nat * option nat) * nat * nat := (map (fun f => (xf_tri f, xf_base f)) (xp_funs p), length (w_all (xp_pool p)), length (m_t (w_mem (xp_pool p)))).
Definition mem_example (gf : option fimg) (grow : forall A : Type, list (list A) -> nat) : option (list (list Z) * list (list Z) * (list (option nat * option nat) * nat * nat)) :=
  match gf with None => None | Some fi =>
  let steps := [(nudge, ex_sched, [(0, 1)%nat]); (nudge, ex_sched, [])] in
  match simple_run_of (parallel fi insertion_sort) 1 (repeat pts0 2) (new_parallel 2 3) ex_sched [] steps, simple_run_of (xparallel grow fi insertion_sort) 1 (repeat pts0 2) (new_xpar 2 3) ex_sched [] steps with
  | Some (_, r1), Some (c, r2) => Some (map (map (fun x => micros (snd x))) r1, map (map (fun x => micros (snd x))) r2, mem_sizes (c_ev c))
  | _, _ => None
  end end.

(** All the fitnesses agree, the mutated member has another fitness, the functions have been swapped, and
    with exact growth the memory holds arrays the growing appends left behind. *)
Definition mem_case (gf : option fimg) (grow : forall A : Type, list (list A) -> nat) (arrays : nat) : bool :=
  match mem_example gf grow with
  | Some ([[a; b]; [c; d]; [e; f]], [[a'; b']; [c'; d']; [e'; f']], ([(Some 1, None); (Some 0, None)], 2, m)) =>
      forallb (fun x => Z.eqb (fst x) (snd x)) [(a, a'); (b, b'); (c, c'); (d, d'); (e, e'); (f, f')] && negb (Z.eqb c d) && (m =? arrays)
  | _ => false
  end.
Example C87_example : mem_case grad_fi tight 24 = true /\ mem_case grad_fi spare 6 = true.
Proof. vm_compute. split; reflexivity. Qed.
