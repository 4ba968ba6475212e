(** C59: the fitness functions keep Delaunay triangulations of their members, for whole runs.
    C60: the program does not panic, and its fitnesses are numbers. *)
From Coq Require Import ZArith Reals List Bool Arith Lia Permutation Sorted.
From Flocq Require Import IEEE754.BinarySingleNaN.
From Verif Require Import GoNum M_Norm M_Slice M_Geom S_Geom M_Image S_Image L_Image M_Raster S_Raster S_Norm M_Delaunay S_Delaunay S_Remove M_Algo S_Algo M_Fitness S_Fitness S_Run S_Run2
  L_Slice L_GMap L_PMap L_Plane L_BW L_Slots L_Toggle L_Insert L_Score L_Hist L_Reach L_Remove L_Tiles L_Algo L_Algo2 L_Algo3 L_Algo4 L_Algo5 L_Fit L_Fit3 L_Sim L_Hold L_Tri L_Fwd L_Total L_Run2 P_Delaunay P_Remove P_Algo P_AlgoEx P_Fitness P_Run.
Import ListNotations.
Open Scope Z_scope.

Lemma alike_used d e : alike d e -> used d = used e.
Proof. intros (A & _). unfold used. rewrite A. reflexivity. Qed.
Lemma alike_iter d e : alike d e -> iter_triangles d = iter_triangles e.
Proof. intros (A & _ & _ & _ & B). unfold iter_triangles, touches_super. rewrite A, B. reflexivity. Qed.
Lemma super_outside w h p : size_ok w h -> in_image w h p -> ~ (let s := new_super_triangle w h in In p [d_a s; d_b s; d_c s]).
Proof.
  intros S I J. cbv zeta in J. apply (sup_in_super w h S) in J. apply (sup_inner w h p S) in I. unfold inner, inside in I. rewrite !oloc_at in I.
  unfold verts in J. destruct J as [<-|[<-|[<-|[]]]]; unfold orient in I; lia.
Qed.
Lemma st_frame w h P d t v : size_ok w h -> dstate_ok w h P d -> In t (used d) -> In v [d_a t; d_b t; d_c t] ->
  In v P \/ (let s := new_super_triangle w h in In v [d_a s; d_b s; d_c s]).
Proof.
  intros S O It Iv. pose proof (dt_verts _ _ _ (ds_del _ _ _ _ O) (ccw t) v (in_map ccw _ _ It)) as V. rewrite ccw_verts in V. specialize (V ltac:(cbn in Iv; intuition auto)).
  apply in_app_or in V. destruct V as [V|V]; [right; cbv zeta; apply (sup_in_super w h S), V|left; exact V].
Qed.
Lemma st_shown w h P d t : size_ok w h -> dstate_ok w h P d -> In t (used d) -> In (d_a t) P -> In (d_b t) P -> In (d_c t) P -> In t (iter_triangles d).
Proof.
  intros S O It Ia Ib Ic. apply iter_live. split; [exact It|].
  assert (G : forall v, In v [d_a (d_super d); d_b (d_super d); d_c (d_super d)] -> has_vertex t v = false).
  { intros v J. rewrite (ds_super _ _ _ _ O) in J. apply not_true_is_false. intros E. unfold has_vertex in E.
    assert (K : In v P) by (rewrite !orb_true_iff in E; destruct E as [[E|E]|E]; apply peq_true in E; subst; assumption).
    apply (super_outside w h v S (ds_in _ _ _ _ O v K)). exact J. }
  unfold touches_super. rewrite !G by (cbn; auto). reflexivity.
Qed.
Lemma state_delaunay w h P d d0 Q : size_ok w h -> dstate_ok w h P d0 -> alike d d0 -> Permutation P Q -> delaunay_triangulation w h Q d.
Proof.
  intros S O A Pm. pose proof (alike_used _ _ A) as U. pose proof (alike_iter _ _ A) as I.
  assert (PI : forall p, In p Q -> In p P) by (intros p; apply Permutation_in, Permutation_sym, Pm).
  assert (PO : forall p, In p P -> In p Q) by (intros p; apply Permutation_in, Pm).
  constructor; rewrite ?U, ?I.
  - intros t p It Ip. apply (st_empty w h P d0 O t p It), PI, Ip.
  - intros t It. apply (st_nondeg w h P d0 O t It).
  - exact (st_covers w h P d0 S O).
  - intros t a b It L. destruct (st_neighbour w h P d0 O t a b It L) as [N|[X Y]]; [left; exact N|right]. cbv zeta. rewrite <- !(sup_in_super w h S). auto.
  - intros t It. repeat split; apply PO, (st_visible w h P d0 S O t); auto; cbn; auto.
  - intros t v It Iv. destruct (st_frame w h P d0 t v S O It Iv) as [V|V]; [left; apply PO, V|right; exact V].
  - intros t It Ia Ib Ic. apply (st_shown w h P d0 t S O It); apply PI; assumption.
  - intros p Ip. exact (st_used w h P d0 O p (PI p Ip)).
  - exact (st_pixels w h P d0 S O).
  - intros q Hq. destruct A as (_ & _ & -> & _). rewrite <- (mult_perm _ _ q Pm). apply copies_of_ok; [exact (ds_pm _ _ _ _ O)|eapply in_image_hashable; eauto].
Qed.
Lemma del_keeps im p i pts f l : usual_size (fi_w im) (fi_h im) -> holdsat (plain_fitness im) (del_of im) l (strip p) i pts f -> keeps_delaunay im p i pts f.
Proof.
  intros Hs (_ & id & d & A & (P & d0 & (_ & O & K) & Pm) & C). rewrite b_at_strip in A. destruct (at_pos p i) as [[id' t]|] eqn:Ea; [|discriminate]. cbn [option_map fst snd] in A.
  injection A as -> T B0. exists id, t, d. split; [exact Ea|]. split; [exact T|]. split; [exact B0|]. split; [|exact C].
  eapply state_delaunay; eauto. apply small_ok, usual_small, Hs.
Qed.

(** * The fitness of such a triangulation *)
Lemma plain_sums_some fi ts : (forall t, In t ts -> tri_diff fi (d_a t) (d_b t) (d_c t) <> None) -> exists x, plain_sums fi ts = Some x.
Proof.
  unfold plain_sums. generalize (f0, f0). induction ts as [|t ts IH]; intros da H; [exists da; reflexivity|]. cbn [foldM].
  destruct (tri_diff fi (d_a t) (d_b t) (d_c t)) eqn:E; [|destruct (H t (or_introl eq_refl) E)]. apply IH. intros u Hu. apply H. right. exact Hu.
Qed.
Section Fit.
Context (im : idata) (bs : Z) (fi : fimg).
Hypothesis Him : image_function im bs fi.
Lemma im_size : fi_w fi = i_w im /\ fi_h fi = i_h im.
Proof. destruct Him as (_ & _ & _ & _ & _ & fuel & _ & E). apply new_fimg_fields in E as (A & B & _). auto. Qed.
Lemma im_usual : usual_size (fi_w fi) (fi_h fi).
Proof. destruct im_size as [-> ->]. apply Him. Qed.
Lemma del_fit pts d : del_of fi pts d -> exists f, plain_fitness fi d = Some f.
Proof.
  intros (P & d0 & (_ & O & A) & Pm). pose proof im_usual as U. pose proof (small_ok _ _ (usual_small _ _ U)) as S.
  pose proof (state_delaunay _ _ _ _ _ _ S O A Pm) as D. destruct Him as (G & U' & B1 & B2 & B3 & fuel & F & E).
  assert (K : forall t, In t (iter_triangles d) -> tri_diff fi (d_a t) (d_b t) (d_c t) <> None).
  { intros t It. assert (T : image_tri im (Tri (d_a t) (d_b t) (d_c t))).
    - split.
      + assert (Iu : In t (used d)) by (unfold iter_triangles in It; unfold used; apply filter_In in It as [I J]; apply filter_In; split; [exact I|]; apply andb_true_iff in J; apply J).
        pose proof (del_area _ _ _ _ D t Iu) as N. unfold tarea, area2, orient in *. cbn [ta tb tc]. lia.
      + destruct im_size as [<- <-]. intros p Hp. change (in_image (fi_w fi) (fi_h fi) p). apply (ds_in _ _ _ _ O), (Permutation_in _ (Permutation_sym Pm)).
        destruct (del_corners _ _ _ _ D t It) as (V1 & V2 & V3). cbn [verts ta tb tc In] in Hp. destruct Hp as [<-|[<-|[<-|[]]]]; assumption.
    - destruct U' as (W & H & _). rewrite (proj2 (C25_exact_pixels im fi bs fuel _ _ _ G ltac:(lia) ltac:(lia) B1 B2 B3 E T) F). discriminate. }
  destruct (plain_sums_some fi _ K) as ([u v] & Es). unfold plain_fitness. rewrite Es. eauto.
Qed.
Lemma del_finite pts d f : del_of fi pts d -> plain_fitness fi d = Some f -> is_finite f = true.
Proof.
  intros (P & d0 & (_ & O & A) & Pm). destruct Him as (G & U' & B1 & B2 & B3 & fuel & F & E). destruct U' as (W & H & _).
  apply (C26_fitness_finite im fuel bs fi d f G ltac:(lia) ltac:(lia) E). destruct A as (-> & _).
  pose proof (s_size _ _ _ _ (ds_slots _ _ _ _ O)). lia.
Qed.
End Fit.
Lemma finite_num (f : f64) : is_finite f = true -> is_nan f = false.
Proof. destruct f; (reflexivity || discriminate). Qed.

Lemma pow_range pow2 : (1 <= pow2 <= 62)%nat -> 2 <= Z.of_nat (Nat.pow 2 pow2) < 2 ^ 63.
Proof. intros Hk. rewrite Nat2Z.inj_pow. change (Z.of_nat 2) with 2. split; [change 2 with (2 ^ 1) at 1; apply Z.pow_le_mono_r; lia|apply Z.pow_lt_mono_r; lia]. Qed.
(** No calculation of triangles fails. *)
Definition Ttnew fi srt l (U : usual_size (fi_w fi) (fi_h fi)) Hl base pts log O := or_introl False (del_tnew fi srt l U Hl base pts log O).
Definition Ttmod fi srt l (U : usual_size (fi_w fi) (fi_h fi)) (S : hull_sort srt) Hl q d q' o pts log A B C D E G := or_introl False (del_tmod fi srt l U (proj1 S) (proj2 S) Hl q d q' o pts log A B C D E G).
(** * The simple algorithm *)
Section Simple.
Context (im : idata) (bs : Z) (fi : fimg) (srt : point -> list point -> option (list point)) (cutoff n l pow2 : nat).
Hypothesis Him : image_function im bs fi.
Hypothesis Hsrt : hull_sort srt.
Hypothesis Hl : Z.of_nat l <= 32765.
Hypothesis Hcut : cutoff <> 0%nat.
Hypothesis Hk : (1 <= pow2 <= 62)%nat.
Notation F := (cmap strip). Notation ev := (bare_ev fi srt). Notation N := (Z.of_nat (Nat.pow 2 pow2)).
Notation Held := (held (plain_fitness fi) (del_of fi) l). Notation GHeld := (gheld (plain_fitness fi) (del_of fi) l).
Notation Live := (alive (plive fi N) n).

Notation HN := (pow_range pow2 Hk).
Lemma Usz : usual_size (fi_w fi) (fi_h fi). Proof. exact (im_usual im bs fi Him). Qed.
Notation Dnew := (del_new fi srt l Usz Hl). Notation Dmod := (del_mod fi srt l Usz (proj1 Hsrt) (proj2 Hsrt) Hl).
Lemma held_finite e i pts f : holdsat (plain_fitness fi) (del_of fi) l e i pts f -> is_finite f = true.
Proof. intros (_ & id & d & _ & D & E). exact (del_finite im bs fi Him pts d f D E). Qed.
Lemma held_finites c : Held n (F c) -> length (c_fits c) = n -> Forall (fun f => is_finite f = true) (c_fits c).
Proof.
  intros [_ H] L. apply Forall_forall. intros f Hf. apply (In_nth _ _ f0) in Hf as (k & Hk' & <-). apply (held_finite _ _ _ _ (H k ltac:(lia))).
Qed.
Lemma finites_num fits : Forall (fun f => is_finite f = true) fits -> forall f : f64, In f fits -> is_nan f = false.
Proof. rewrite Forall_forall. intros H f Hf. apply finite_num, H, Hf. Qed.

Record pinv (c : core par) : Prop := {
  pi_live : Live c; pi_hist : simple_history ev cutoff n l (F c); pi_held : Held n (F c); pi_fin : Forall (fun f => is_finite f = true) (c_fits c); pi_len : length (c_fits c) = n }.
Lemma live_ok c : Live c -> par_ok fi (c_ev c). Proof. intros [A _]. exact A. Qed.

Lemma step_inv c mu s sw c' r : pinv c -> mutator_ok mu -> valid_schedule n s -> simple_step (parallel fi srt) cutoff mu s sw c = Some (c', r) ->
  Live c' /\ Held n (F c') /\ Forall (fun f => is_finite f = true) (c_fits c') /\ length (c_fits c') = n /\ (sorted (c_fits c') -> pinv c') /\ (forall i, (i < cutoff)%nat -> In (nth i (c_fits c) f0) (c_fits c')).
Proof.
  intros [Li H He Fi Le] Hmu Hv E. pose proof HN as HN.
  destruct (sim_simple_step (parallel fi srt) ev strip (par_ok fi) (par_calc_sim fi srt) (par_upd_sim fi srt) (par_prep_sim fi srt) (par_base_sim fi srt) (par_swap_sim fi srt) cutoff mu s sw c c' r (live_ok c Li) E) as [O' E'].
  destruct (fwd_simple_step (parallel fi srt) ev strip (plive fi N) n (plive_calc fi srt N HN) (plive_upd fi srt N HN) (plive_prep fi srt N HN) (plive_base fi srt N HN) (plive_swap fi srt N n HN) cutoff mu s sw c (F c') r Hv Li E') as (c2 & E2 & _ & Li').
  rewrite E in E2. injection E2 as <-.
  destruct (simple_history_shape ev cutoff n l (F c) Hcut H) as [Sh Sq].
  destruct (simple_held (next_tri fi srt) (plain_fitness fi) (del_of fi) l Dnew (del_keep fi srt) Dmod cutoff mu s sw n (F c) (F c') r Hcut Sh Sq Hmu Hv He E') as (He' & K & Nr).
  destruct (simple_step_spec ev cutoff mu s sw n l (F c) (F c') r Hcut Sh Sq Hmu Hv E') as (Sh' & _).
  pose proof (sh_fits _ _ _ Sh' : length (c_fits c') = n) as Le'. pose proof (held_finites c' He' Le') as Fi'.
  split; [exact Li'|]. split; [exact He'|]. split; [exact Fi'|]. split; [exact Le'|]. split; [|intros i Hi; apply (K i Hi)].
  intros So. constructor; try assumption. eapply sh_step; eauto.
Qed.
Lemma new_inv groups s sw c r : point_groups n l groups -> valid_schedule n s -> new_simple (parallel fi srt) groups (new_parallel n pow2) s sw = Some (c, r) ->
  Live c /\ Held n (F c) /\ Forall (fun f => is_finite f = true) (c_fits c) /\ length (c_fits c) = n /\ (sorted (c_fits c) -> pinv c).
Proof.
  intros [L Gf] Hv E. destruct (new_parallel_ok fi n pow2) as [O St].
  destruct (sim_new_simple (parallel fi srt) ev strip (par_ok fi) (par_calc_sim fi srt) (par_upd_sim fi srt) (par_prep_sim fi srt) (par_swap_sim fi srt) groups (new_parallel n pow2) s sw c r O E) as [O' E'].
  destruct (fwd_new_simple (parallel fi srt) ev strip (plive fi N) n (plive_calc fi srt N HN) (plive_upd fi srt N HN) (plive_prep fi srt N HN) (plive_swap fi srt N n HN) groups (new_parallel n pow2) s sw (F c) r Hv (new_plive fi n pow2) E') as (c2 & E2 & _ & Li').
  rewrite E in E2. injection E2 as <-. rewrite St in E'.
  destruct (new_simple_held (next_tri fi srt) (plain_fitness fi) (del_of fi) l Dnew (del_keep fi srt) Dmod a_delaunay groups s sw n (F c) r L Gf Hv E') as [He Nr].
  assert (Hv' : valid_schedule (length groups) s) by (rewrite L; exact Hv).
  destruct (new_simple_spec ev groups _ s sw (F c) r l Gf Hv' E') as (Sh' & _). rewrite L in Sh'.
  pose proof (sh_fits _ _ _ Sh' : length (c_fits c) = n) as Le'. pose proof (held_finites c He Le') as Fi'.
  split; [exact Li'|]. split; [exact He|]. split; [exact Fi'|]. split; [exact Le'|]. intros So. constructor; try assumption. eapply sh_init; eauto.
Qed.
Lemma program_inv c : simple_program fi srt cutoff n l pow2 c -> pinv c.
Proof.
  induction 1 as [groups s sw c r G Hv E So|c mu s sw c' r _ IH Hmu Hv E So].
  - destruct (new_inv groups s sw c r G Hv E) as (_ & _ & Fi & _ & K). apply K, So, finites_num, Fi.
  - destruct (step_inv c mu s sw c' r IH Hmu Hv E) as (_ & _ & Fi & _ & K & _). apply K, So, finites_num, Fi.
Qed.
Lemma program_sorted c : simple_program fi srt cutoff n l pow2 c -> sorted (c_fits c).
Proof.
  intros R. pose proof (program_inv c R) as [_ _ _ Fi _]. destruct R as [groups s sw c r G Hv E So|c mu s sw c' r _ Hmu Hv E So]; apply So, finites_num, Fi.
Qed.
Lemma within_range sw : swaps_within n sw -> in_range n sw.
Proof. intros H i j I. apply (H (i, j) I). Qed.
Lemma step_returns c mu s sw : (0 < n)%nat -> (cutoff <= n)%nat -> simple_program fi srt cutoff n l pow2 c -> mutator_ok mu -> valid_schedule n s -> swaps_within n sw ->
  exists c' r, simple_step (parallel fi srt) cutoff mu s sw c = Some (c', r).
Proof.
  intros Hn Hc R Hmu Hv Hw. destruct (program_inv c R) as [Li H He Fi Le]. destruct (simple_history_shape ev cutoff n l (F c) Hcut H) as [Sh Sq].
  destruct (simple_step_total (next_tri fi srt) (plain_fitness fi) (del_of fi) l Dnew (del_keep fi srt) Dmod (fun _ => False) (fun _ _ => False) (Ttnew fi srt l Usz Hl) (Ttmod fi srt l Usz Hsrt Hl)
    (fun pts d _ D => del_fit im bs fi Him pts d D) cutoff mu s sw n (F c) Hn Hcut Hc Sh Sq Hmu Hv (within_range sw Hw) He) as [(k & r & E)|(i & _ & [[]|(j & _ & [])])].
  destruct (fwd_simple_step (parallel fi srt) ev strip (plive fi N) n (plive_calc fi srt N HN) (plive_upd fi srt N HN) (plive_prep fi srt N HN) (plive_base fi srt N HN) (plive_swap fi srt N n HN) cutoff mu s sw c k r Hv Li E) as (c2 & E2 & _ & _).
  eauto.
Qed.
Lemma new_returns groups s sw : (0 < n)%nat -> point_groups n l groups -> valid_schedule n s -> swaps_within n sw ->
  exists c r, new_simple (parallel fi srt) groups (new_parallel n pow2) s sw = Some (c, r).
Proof.
  intros Hn [L Gf] Hv Hw. destruct (new_parallel_ok fi n pow2) as [O St].
  destruct (new_simple_total (next_tri fi srt) (plain_fitness fi) (del_of fi) l Dnew (del_keep fi srt) Dmod (fun _ => False) (fun _ _ => False) (Ttnew fi srt l Usz Hl) (Ttmod fi srt l Usz Hsrt Hl)
    (fun pts d _ D => del_fit im bs fi Him pts d D) a_delaunay groups s sw n Hn L Gf Hv (within_range sw Hw)) as [(k & r & E)|(i & _ & [])].
  change (new_keeper delaunay n) with (new_bare n) in E. rewrite <- St in E.
  destruct (fwd_new_simple (parallel fi srt) ev strip (plive fi N) n (plive_calc fi srt N HN) (plive_upd fi srt N HN) (plive_prep fi srt N HN) (plive_swap fi srt N n HN) groups (new_parallel n pow2) s sw k r Hv (new_plive fi n pow2) E) as (c2 & E2 & _ & _).
  eauto.
Qed.
End Simple.

(** * Some swaps sort *)
Fixpoint swap_all (sw : list (nat * nat)) (q : list f64) : option (list f64) :=
  match sw with [] => Some q | ij :: sw' => match swap_at (fst ij) (snd ij) q with None => None | Some q' => swap_all sw' q' end end.
Definition shift_swaps (sw : list (nat * nat)) : list (nat * nat) := map (fun ij => (S (fst ij), S (snd ij))) sw.
Lemma swap_all_shift a sw : forall q q', swap_all sw q = Some q' -> swap_all (shift_swaps sw) (a :: q) = Some (a :: q').
Proof.
  induction sw as [|[i j] sw IH]; intros q q'; [intros [= <-]; reflexivity|]. cbn [swap_all shift_swaps map fst snd]. unfold swap_at. cbn [nth_error].
  destruct (nth_error q i); [|discriminate]. destruct (nth_error q j); [|discriminate]. cbn [set_nth]. apply IH.
Qed.
Lemma swap_all_app s1 : forall s2 q q1 q2, swap_all s1 q = Some q1 -> swap_all s2 q1 = Some q2 -> swap_all (s1 ++ s2) q = Some q2.
Proof.
  induction s1 as [|ij s1 IH]; intros s2 q q1 q2; cbn [swap_all app]; [intros [= <-]; auto|]. destruct (swap_at _ _ q); [|discriminate]. apply IH.
Qed.
Lemma perm_swaps (q q' : list f64) : Permutation q q' -> exists sw, swap_all sw q = Some q' /\ swaps_within (length q) sw.
Proof.
  induction 1 as [|a q q' P (sw & E & W)|a b q|q q1 q2 P1 (s1 & E1 & W1) P2 (s2 & E2 & W2)].
  - exists []. split; [reflexivity|intros ? []].
  - exists (shift_swaps sw). split; [apply swap_all_shift, E|]. intros ij I. apply in_map_iff in I as (x & <- & I). specialize (W x I). cbn [fst snd length]. lia.
  - exists [(0, 1)%nat]. split; [reflexivity|]. intros ij [<-|[]]. cbn [fst snd length]. lia.
  - exists (s1 ++ s2). split; [eapply swap_all_app; eauto|]. rewrite <- (Permutation_length P1) in W2. intros ij I. apply in_app_or in I as [I|I]; [apply W1|apply W2]; exact I.
Qed.
Fixpoint ins (x : f64) (q : list f64) : list f64 := match q with [] => [x] | y :: t => if flt x y then y :: ins x t else x :: q end.
Definition isort (q : list f64) : list f64 := fold_right ins [] q.
Lemma ins_perm x q : Permutation (ins x q) (x :: q).
Proof. induction q as [|y t IH]; [reflexivity|]. cbn [ins]. destruct (flt x y); [|reflexivity]. rewrite IH. apply perm_swap. Qed.
Lemma isort_perm q : Permutation (isort q) q.
Proof. induction q as [|x q IH]; [reflexivity|]. cbn [isort fold_right]. rewrite ins_perm. apply perm_skip, IH. Qed.
Lemma ins_sorted x q : is_nan x = false -> Forall (fun y => is_nan y = false) q -> StronglySorted (fun a b => flt a b = false) q -> StronglySorted (fun a b => flt a b = false) (ins x q).
Proof.
  intros Nx Nq. induction 1 as [|y t St IH Hy]; [repeat constructor|]. inversion Nq as [|? ? Ny Nt]; subst. cbn [ins]. destruct (flt x y) eqn:E.
  - constructor; [apply IH, Nt|]. apply Forall_forall. intros z Hz. apply (Permutation_in _ (ins_perm x t)) in Hz as [<-|Hz].
    + apply flt_not_above in E; [|assumption..]. apply E.
    + rewrite Forall_forall in Hy. apply Hy, Hz.
  - constructor; [constructor; assumption|]. apply Forall_forall. intros z [<-|Hz]; [exact E|]. rewrite Forall_forall in Hy, Nt. specialize (Hy z Hz). specialize (Nt z Hz).
    destruct (flt x z) eqn:Ez; [|reflexivity]. exfalso. 
    assert (A : not_above y x) by (repeat split; assumption). assert (B : not_above z y) by (repeat split; assumption).
    destruct (not_above_trans _ _ _ B A) as (_ & _ & C). congruence.
Qed.
Lemma strongly_sorted q : StronglySorted (fun a b => flt a b = false) q -> sorted q.
Proof.
  induction 1 as [|x q St IH Hx]; intros i j [Hi Hj]; cbn [length] in *; [lia|]. unfold less. destruct j as [|j]; [lia|]. destruct i as [|i]; cbn [nth].
  - rewrite Forall_forall in Hx. apply Hx, nth_In. lia.
  - apply (IH i j). lia.
Qed.
Lemma isort_sorted q : Forall (fun y => is_nan y = false) q -> sorted (isort q).
Proof.
  intros N. apply strongly_sorted. induction N as [|x q Nx Nq IH]; [constructor|]. cbn [isort fold_right]. apply ins_sorted; [exact Nx| |exact IH].
  apply Forall_forall. intros z Hz. apply (Permutation_in _ (isort_perm q)) in Hz. rewrite Forall_forall in Nq. apply Nq, Hz.
Qed.
Lemma do_swaps_fits {E} (ev : evaluator E) sw : forall (c c' : core E), do_swaps ev sw c = Some c' -> swap_all sw (c_fits c) = Some (c_fits c').
Proof.
  induction sw as [|[i j] sw IH]; intros c c'; cbn [do_swaps swap_all fst snd]; [intros [= <-]; reflexivity|]. unfold swap_members.
  destruct (swap_at i j (c_fits c)) as [fs|]; [|discriminate]. destruct (swap_at i j (c_pop c)); [|discriminate]. destruct (ev_swap ev (c_ev c) i j); [|discriminate]. apply IH.
Qed.
Lemma update_fits {E} (ev : evaluator E) sw (c c' : core E) : update_fitnesses ev sw c = Some c' -> swap_all sw (c_fits c) = Some (c_fits c').
Proof.
  unfold update_fitnesses. destruct (do_swaps ev sw c) as [c1|] eqn:E1; [|discriminate]. intros E2. rewrite (do_swaps_fits ev sw c c1 E1). f_equal.
  unfold take_best in E2. destruct (nth_error (c_pop c1) 0); [|discriminate]. destruct (nth_error (c_fits c1) 0); [|discriminate]. destruct (buf_set _ _ _); [|discriminate]. injection E2 as <-. reflexivity.
Qed.
(** Whatever was calculated without a NaN, some swaps of sort.Sort put it in order. *)
Lemma sorting_swaps q : (forall f, In f q -> is_nan f = false) -> exists sw, swaps_within (length q) sw /\ forall q', swap_all sw q = Some q' -> sorted q'.
Proof.
  intros N. destruct (perm_swaps q (isort q) (Permutation_sym (isort_perm q))) as (sw & E & W). exists sw. split; [exact W|]. intros q'. rewrite E. intros [= <-].
  apply isort_sorted, Forall_forall, N.
Qed.

Section Simple2.
Context (im : idata) (bs : Z) (fi : fimg) (srt : point -> list point -> option (list point)) (cutoff n l pow2 : nat).
Hypothesis Him : image_function im bs fi.
Hypothesis Hsrt : hull_sort srt.
Hypothesis Hl : Z.of_nat l <= 32765.
Hypothesis Hcut : cutoff <> 0%nat.
Hypothesis Hk : (1 <= pow2 <= 62)%nat.
Lemma step_sorts c mu s : (0 < n)%nat -> (cutoff <= n)%nat -> simple_program fi srt cutoff n l pow2 c -> mutator_ok mu -> valid_schedule n s ->
  exists sw c' r, swaps_within n sw /\ simple_step (parallel fi srt) cutoff mu s sw c = Some (c', r) /\ sorted (c_fits c').
Proof.
  intros Hn Hc R Hmu Hv. destruct (step_returns im bs fi srt cutoff n l pow2 Him Hsrt Hl Hcut Hk c mu s [] Hn Hc R Hmu Hv ltac:(intros ? [])) as (c0 & r0 & E0).
  destruct (step_inv im bs fi srt cutoff n l pow2 Him Hsrt Hl Hcut Hk c mu s [] c0 r0 (program_inv im bs fi srt cutoff n l pow2 Him Hsrt Hl Hcut Hk c R) Hmu Hv E0) as (_ & _ & Fi & Le & _).
  destruct (sorting_swaps (c_fits c0) (finites_num _ Fi)) as (sw & W0 & K). assert (W : swaps_within n sw) by (rewrite <- Le; exact W0).
  destruct (step_returns im bs fi srt cutoff n l pow2 Him Hsrt Hl Hcut Hk c mu s sw Hn Hc R Hmu Hv W) as (c1 & r1 & E1).
  exists sw, c1, r1. split; [exact W|]. split; [exact E1|]. apply K. unfold simple_step in E0, E1.
  destruct (new_generation (parallel fi srt) mu cutoff (length (c_pop c)) c) as [c2|]; [|discriminate]. destruct (simple_calc (parallel fi srt) s c2) as [[c3 r3]|]; [|discriminate].
  destruct (update_fitnesses (parallel fi srt) [] c3) as [c4|] eqn:E4; [|discriminate]. destruct (update_fitnesses (parallel fi srt) sw c3) as [c5|] eqn:E5; [|discriminate].
  apply update_fits in E4, E5. cbn [option_map] in E0, E1. injection E0 as <- <-. injection E1 as <- <-. cbn [next_gen c_fits]. cbn [swap_all] in E4. injection E4 as <-. exact E5.
Qed.
Lemma new_sorts groups s : (0 < n)%nat -> point_groups n l groups -> valid_schedule n s ->
  exists sw c r, swaps_within n sw /\ new_simple (parallel fi srt) groups (new_parallel n pow2) s sw = Some (c, r) /\ sorted (c_fits c).
Proof.
  intros Hn G Hv. destruct (new_returns im bs fi srt n l pow2 Him Hsrt Hl Hk groups s [] Hn G Hv ltac:(intros ? [])) as (c0 & r0 & E0).
  destruct (new_inv im bs fi srt cutoff n l pow2 Him Hsrt Hl Hcut Hk groups s [] c0 r0 G Hv E0) as (_ & _ & Fi & Le & _).
  destruct (sorting_swaps (c_fits c0) (finites_num _ Fi)) as (sw & W0 & K). assert (W : swaps_within n sw) by (rewrite <- Le; exact W0).
  destruct (new_returns im bs fi srt n l pow2 Him Hsrt Hl Hk groups s sw Hn G Hv W) as (c1 & r1 & E1).
  exists sw, c1, r1. split; [exact W|]. split; [exact E1|]. apply K. unfold new_simple in E0, E1.
  destruct (init_core groups (new_parallel n pow2)) as [c2|]; [|discriminate]. destruct (simple_calc (parallel fi srt) s c2) as [[c3 r3]|]; [|discriminate].
  destruct (update_fitnesses (parallel fi srt) [] c3) as [c4|] eqn:E4; [|discriminate]. destruct (update_fitnesses (parallel fi srt) sw c3) as [c5|] eqn:E5; [|discriminate].
  apply update_fits in E4, E5. cbn [option_map] in E0, E1. injection E0 as <- <-. injection E1 as <- <-. cbn [swap_all] in E4. injection E4 as <-. exact E5.
Qed.
End Simple2.

(** * The modified genetic algorithm *)
Section Genetic.
Context (im : idata) (bs : Z) (fi : fimg) (srt : point -> list point -> option (list point)) (cutoff n l pow2 : nat).
Hypothesis Him : image_function im bs fi.
Hypothesis Hsrt : hull_sort srt.
Hypothesis Hl : Z.of_nat l <= 32765.
Hypothesis Hcut : cutoff <> 0%nat.
Hypothesis H2c : (2 * cutoff <= n)%nat.
Hypothesis Hk : (1 <= pow2 <= 62)%nat.
Notation F := (cmap strip). Notation G := (gmap strip). Notation ev := (bare_ev fi srt). Notation N := (Z.of_nat (Nat.pow 2 pow2)).
Notation GHeld := (gheld (plain_fitness fi) (del_of fi) l).
Notation Live := (alive (plive fi N) n).
Notation Usz := (im_usual im bs fi Him). Notation HN := (pow_range pow2 Hk).
Notation Dnew := (del_new fi srt l Usz Hl). Notation Dmod := (del_mod fi srt l Usz (proj1 Hsrt) (proj2 Hsrt) Hl).

Record qinv (g : mgen par) : Prop := {
  qi_live : Live (g_core g); qi_hist : genetic_history ev cutoff n l (G g); qi_held : GHeld cutoff n (F (g_core g)); qi_sorted : sorted (c_fits (g_core g)) }.
Lemma g_run_inv g : genetic_run fi srt cutoff n l pow2 g -> qinv g.
Proof.
  induction 1 as [groups s sw g r L Gf Hv E So Po|g mu s sw g' r _ [Li H He S0] Hmu Hv E So Po].
  - destruct (new_parallel_ok fi n pow2) as [O St].
    destruct (sim_new_genetic (parallel fi srt) ev strip (par_ok fi) (par_calc_sim fi srt) (par_upd_sim fi srt) (par_prep_sim fi srt) (par_swap_sim fi srt) cutoff groups (new_parallel n pow2) s sw g r O E) as [O' E'].
    destruct (fwd_new_genetic (parallel fi srt) ev strip (plive fi N) n (plive_calc fi srt N HN) (plive_upd fi srt N HN) (plive_prep fi srt N HN) (plive_swap fi srt N n HN) cutoff groups (new_parallel n pow2) s sw (G g) r Hv (new_plive fi n pow2) E') as (g2 & E2 & _ & Li').
    rewrite E in E2. injection E2 as <-. rewrite St in E'.
    pose proof (new_genetic_held (next_tri fi srt) (plain_fitness fi) (del_of fi) l Dnew (del_keep fi srt) Dmod a_delaunay cutoff groups s sw n (G g) r Hcut L Gf Hv E' Po) as He.
    constructor; [exact Li'| |exact He|exact So]. eapply gh_init; eauto.
  - destruct (sim_genetic_step (parallel fi srt) ev strip (par_ok fi) (par_calc_sim fi srt) (par_upd_sim fi srt) (par_prep_sim fi srt) (par_base_sim fi srt) (par_swap_sim fi srt) cutoff mu s sw g g' r (proj1 Li) E) as [O' E'].
    destruct (genetic_history_shape ev cutoff n l (G g) Hcut H) as (Sh & Sq & Lb & _).
    destruct (fwd_genetic_step (parallel fi srt) ev strip (plive fi N) n (plive_calc fi srt N HN) (plive_upd fi srt N HN) (plive_prep fi srt N HN) (plive_base fi srt N HN) (plive_swap fi srt N n HN) cutoff mu s sw g (G g') r ltac:(lia) (sh_pop _ _ _ Sh) Hv Li E') as (g2 & E2 & _ & Li').
    rewrite E in E2. injection E2 as <-.
    destruct (genetic_held (next_tri fi srt) (plain_fitness fi) (del_of fi) l Dnew (del_keep fi srt) Dmod cutoff mu s sw n (F (g_core g)) (g_ben g) (G g') r Hcut H2c Sh Sq Hmu Hv Lb He S0 E' Po) as (He' & K).
    constructor; [exact Li'| |exact He'|exact So]. eapply gh_step; eauto.
Qed.
Lemma g_step_returns g mu s sw : genetic_run fi srt cutoff n l pow2 g -> mutator_ok mu -> valid_schedule (n - cutoff) s -> swaps_within n sw ->
  exists g' r, genetic_step (parallel fi srt) cutoff mu s sw g = Some (g', r).
Proof.
  intros R Hmu Hv Hw. destruct (g_run_inv g R) as [Li H He S0]. destruct (genetic_history_shape ev cutoff n l (G g) Hcut H) as (Sh & Sq & Lb & _).
  destruct (genetic_step_total (next_tri fi srt) (plain_fitness fi) (del_of fi) l Dnew (del_keep fi srt) Dmod (fun _ => False) (fun _ _ => False) (Ttnew fi srt l Usz Hl) (Ttmod fi srt l Usz Hsrt Hl)
    (fun pts d _ D => del_fit im bs fi Him pts d D) cutoff mu s sw n (F (g_core g)) (g_ben g) Hcut H2c Sh Sq Hmu Hv (within_range n sw Hw) Lb He S0) as [(k & r & E)|[(i & _ & [[]|(j & _ & [])])|(b & ms & pts & _ & _ & _ & _ & [[]|(j & _ & [])])]].
  destruct (fwd_genetic_step (parallel fi srt) ev strip (plive fi N) n (plive_calc fi srt N HN) (plive_upd fi srt N HN) (plive_prep fi srt N HN) (plive_base fi srt N HN) (plive_swap fi srt N n HN) cutoff mu s sw g k r ltac:(lia) (sh_pop _ _ _ Sh) Hv Li E) as (g2 & E2 & _ & _).
  eauto.
Qed.
Lemma g_new_returns groups s sw : point_groups n l groups -> valid_schedule (n - cutoff) s -> swaps_within n sw ->
  exists g r, new_genetic (parallel fi srt) cutoff groups (new_parallel n pow2) s sw = Some (g, r).
Proof.
  intros [L Gf] Hv Hw. destruct (new_parallel_ok fi n pow2) as [O St].
  destruct (new_genetic_total (next_tri fi srt) (plain_fitness fi) (del_of fi) l Dnew (del_keep fi srt) Dmod (fun _ => False) (fun _ _ => False) (Ttnew fi srt l Usz Hl) (Ttmod fi srt l Usz Hsrt Hl)
    (fun pts d _ D => del_fit im bs fi Him pts d D) a_delaunay cutoff groups s sw n Hcut ltac:(lia) L Gf Hv (within_range n sw Hw)) as [(k & r & E)|(i & _ & [])].
  change (new_keeper delaunay n) with (new_bare n) in E. rewrite <- St in E.
  destruct (fwd_new_genetic (parallel fi srt) ev strip (plive fi N) n (plive_calc fi srt N HN) (plive_upd fi srt N HN) (plive_prep fi srt N HN) (plive_swap fi srt N n HN) cutoff groups (new_parallel n pow2) s sw k r Hv (new_plive fi n pow2) E) as (g2 & E2 & _ & _).
  eauto.
Qed.
End Genetic.

(** * C59 *)
Theorem C59_simple im bs fi srt cutoff n l pow2 c : image_function im bs fi -> hull_sort srt -> Z.of_nat l <= 32765 -> cutoff <> 0%nat -> (1 <= pow2 <= 62)%nat ->
  simple_program fi srt cutoff n l pow2 c ->
  forall i, (i < n)%nat -> keeps_delaunay fi (c_ev c) i (nth i (members c) []) (nth i (c_fits c) f0).
Proof.
  intros Him Hs Hl Hc Hk R i Hi. destruct (program_inv im bs fi srt cutoff n l pow2 Him Hs Hl Hc Hk c R) as [_ _ [_ He] _ _].
  specialize (He i Hi). apply del_keeps in He; [exact He|exact (im_usual im bs fi Him)].
Qed.
Print Assumptions C59_simple.
(** In the modified genetic algorithm a member that was not evaluated has the fitness 0. *)
Theorem C59_genetic im bs fi srt cutoff n l pow2 g : image_function im bs fi -> hull_sort srt -> Z.of_nat l <= 32765 -> cutoff <> 0%nat -> (2 * cutoff <= n)%nat -> (1 <= pow2 <= 62)%nat ->
  genetic_run fi srt cutoff n l pow2 g -> let c := g_core g in
  (forall i, (i < n)%nat -> keeps_delaunay fi (c_ev c) i (nth i (members c) []) (nth i (c_fits c) f0) \/ nth i (c_fits c) f0 = f0) /\
  (forall i, (i < cutoff)%nat -> keeps_delaunay fi (c_ev c) i (nth i (members c) []) (nth i (c_fits c) f0)).
Proof.
  intros Him Hs Hl Hc H2 Hk R. cbv zeta. destruct (g_run_inv im bs fi srt cutoff n l pow2 Him Hs Hl Hc H2 Hk g R) as [_ Hh (_ & Hcnt & He) Hso].
  assert (A : forall i, (i < n)%nat -> keeps_delaunay fi (c_ev (g_core g)) i (nth i (members (g_core g)) []) (nth i (c_fits (g_core g)) f0) \/ nth i (c_fits (g_core g)) f0 = f0).
  { intros i Hi. destruct (He i Hi) as [[A B]|[A _]]; [left|right; exact A]. apply del_keeps in A; [exact A|exact (im_usual im bs fi Him)]. }
  split; [exact A|]. intros i Hi. destruct (A i ltac:(lia)) as [B|B]; [exact B|]. exfalso.
  destruct (genetic_history_shape (bare_ev fi srt) cutoff n l _ Hc Hh) as (Sh & _).
  apply (top_positive cutoff (c_fits (g_core g)) i Hso); try exact B; try exact Hi.
  - rewrite (sh_fits _ _ _ Sh : length (c_fits (g_core g)) = n). exact Hcnt.
  - rewrite (sh_fits _ _ _ Sh : length (c_fits (g_core g)) = n). exact H2.
Qed.
Print Assumptions C59_genetic.

(** * C60 *)
(** NewSimple returns, and every Step after it. *)
Theorem C60_new_simple im bs fi srt n l pow2 groups s sw : image_function im bs fi -> hull_sort srt -> Z.of_nat l <= 32765 -> (1 <= pow2 <= 62)%nat -> (0 < n)%nat ->
  point_groups n l groups -> valid_schedule n s -> swaps_within n sw ->
  exists c r, new_simple (parallel fi srt) groups (new_parallel n pow2) s sw = Some (c, r).
Proof. intros Him Hs Hl Hk Hn G Hv Hw. exact (new_returns im bs fi srt n l pow2 Him Hs Hl Hk groups s sw Hn G Hv Hw). Qed.
Print Assumptions C60_new_simple.
Theorem C60_simple_step im bs fi srt cutoff n l pow2 c mu s sw : image_function im bs fi -> hull_sort srt -> Z.of_nat l <= 32765 -> cutoff <> 0%nat -> (cutoff <= n)%nat -> (1 <= pow2 <= 62)%nat -> (0 < n)%nat ->
  simple_program fi srt cutoff n l pow2 c -> mutator_ok mu -> valid_schedule n s -> swaps_within n sw ->
  exists c' r, simple_step (parallel fi srt) cutoff mu s sw c = Some (c', r).
Proof. intros Him Hs Hl Hc Hcn Hk Hn R Hmu Hv Hw. exact (step_returns im bs fi srt cutoff n l pow2 Him Hs Hl Hc Hk c mu s sw Hn Hcn R Hmu Hv Hw). Qed.
Print Assumptions C60_simple_step.
(** The fitnesses sort.Sort gets are numbers, so that it sorts; some swaps do. *)
Theorem C60_simple_sorts im bs fi srt cutoff n l pow2 c mu s : image_function im bs fi -> hull_sort srt -> Z.of_nat l <= 32765 -> cutoff <> 0%nat -> (cutoff <= n)%nat -> (1 <= pow2 <= 62)%nat -> (0 < n)%nat ->
  simple_program fi srt cutoff n l pow2 c -> mutator_ok mu -> valid_schedule n s ->
  (forall sw c' r, simple_step (parallel fi srt) cutoff mu s sw c = Some (c', r) -> Forall (fun f => is_finite f = true) (c_fits c')) /\
  exists sw c' r, swaps_within n sw /\ simple_step (parallel fi srt) cutoff mu s sw c = Some (c', r) /\ sorted (c_fits c') /\ simple_program fi srt cutoff n l pow2 c'.
Proof.
  intros Him Hs Hl Hc Hcn Hk Hn R Hmu Hv. split.
  - intros sw c' r E. exact (proj1 (proj2 (proj2 (step_inv im bs fi srt cutoff n l pow2 Him Hs Hl Hc Hk c mu s sw c' r (program_inv im bs fi srt cutoff n l pow2 Him Hs Hl Hc Hk c R) Hmu Hv E)))).
  - destruct (step_sorts im bs fi srt cutoff n l pow2 Him Hs Hl Hc Hk c mu s Hn Hcn R Hmu Hv) as (sw & c' & r & W & E & So). exists sw, c', r. split; [exact W|]. split; [exact E|]. split; [exact So|].
    eapply sp_step; eauto. intros _. exact So.
Qed.
Print Assumptions C60_simple_sorts.
(** The best fitness is a number and never gets worse; no assumption on the fitnesses. *)
Theorem C60_simple_best im bs fi srt cutoff n l pow2 c mu s sw c' r : image_function im bs fi -> hull_sort srt -> Z.of_nat l <= 32765 -> cutoff <> 0%nat -> (cutoff <= n)%nat -> (1 <= pow2 <= 62)%nat -> (0 < n)%nat ->
  simple_program fi srt cutoff n l pow2 c -> mutator_ok mu -> valid_schedule n s ->
  simple_step (parallel fi srt) cutoff mu s sw c = Some (c', r) -> sort_sorts (c_fits c') ->
  is_finite (stats_best c) = true /\ is_finite (stats_best c') = true /\ not_above (stats_best c) (stats_best c') /\ forall f, In f (c_fits c') -> not_above f (stats_best c').
Proof.
  intros Him Hs Hl Hc Hcn Hk Hn R Hmu Hv E So. pose proof (program_inv im bs fi srt cutoff n l pow2 Him Hs Hl Hc Hk c R) as I.
  destruct (step_inv im bs fi srt cutoff n l pow2 Him Hs Hl Hc Hk c mu s sw c' r I Hmu Hv E) as (_ & _ & Fi & Le & I' & K).
  pose proof (So (finites_num _ Fi)) as Sd. specialize (I' Sd).
  destruct (simple_evaluated (bare_ev fi srt) cutoff n l _ Hc (pi_hist _ _ _ _ _ _ _ I)) as (_ & _ & B1 & _).
  destruct (simple_evaluated (bare_ev fi srt) cutoff n l _ Hc (pi_hist _ _ _ _ _ _ _ I')) as (_ & _ & B2 & _).
  unfold stats_best. change (c_bestfit c = nth 0 (c_fits c) f0) in B1. change (c_bestfit c' = nth 0 (c_fits c') f0) in B2. rewrite B1, B2.
  pose proof (pi_len _ _ _ _ _ _ _ I) as L1. pose proof (pi_fin _ _ _ _ _ _ _ I) as F1.
  assert (T : forall f, In f (c_fits c') -> not_above f (nth 0 (c_fits c') f0)) by (intros f Hf; apply head_above; [exact Sd|exact Hf|apply finites_num, Fi]).
  split; [rewrite Forall_forall in F1; apply F1, nth_In; lia|]. split; [rewrite Forall_forall in Fi; apply Fi, nth_In; lia|]. split; [apply T, K; lia|exact T].
Qed.
Print Assumptions C60_simple_best.

(** NewModifiedGenetic returns, and every Step after it while the fitnesses are positive. *)
Theorem C60_new_genetic im bs fi srt cutoff n l pow2 groups s sw : image_function im bs fi -> hull_sort srt -> Z.of_nat l <= 32765 -> cutoff <> 0%nat -> (2 * cutoff <= n)%nat -> (1 <= pow2 <= 62)%nat ->
  point_groups n l groups -> valid_schedule (n - cutoff) s -> swaps_within n sw ->
  exists g r, new_genetic (parallel fi srt) cutoff groups (new_parallel n pow2) s sw = Some (g, r).
Proof. intros Him Hs Hl Hc H2 Hk G Hv Hw. exact (g_new_returns im bs fi srt cutoff n l pow2 Him Hs Hl Hc H2 Hk groups s sw G Hv Hw). Qed.
Print Assumptions C60_new_genetic.
Theorem C60_genetic_step im bs fi srt cutoff n l pow2 g mu s sw : image_function im bs fi -> hull_sort srt -> Z.of_nat l <= 32765 -> cutoff <> 0%nat -> (2 * cutoff <= n)%nat -> (1 <= pow2 <= 62)%nat ->
  genetic_run fi srt cutoff n l pow2 g -> mutator_ok mu -> valid_schedule (n - cutoff) s -> swaps_within n sw ->
  exists g' r, genetic_step (parallel fi srt) cutoff mu s sw g = Some (g', r).
Proof. intros Him Hs Hl Hc H2 Hk R Hmu Hv Hw. exact (g_step_returns im bs fi srt cutoff n l pow2 Him Hs Hl Hc H2 Hk g mu s sw R Hmu Hv Hw). Qed.
Print Assumptions C60_genetic_step.

(** Without positive fitnesses Step can panic: three members of two points each have the
    fitness 0, the order is sorted after every sort, and when the function of the first
    member holds other points than the member, the next Step that moves the point (6,0)
    removes it from a triangulation that does not hold it (pointmap.go:59).  With a
    mutation method that moves nothing the same Step returns. *)
Definition nudge0 : mutator := fun i pts => random_mutate f1 (fdiv f1 (f64_of_Z 4)) (fun k => RD (if (k =? 0)%nat then fhalf else f1) (f64_dy 3 (-2)) (f64_dy 1 (-3))) pts.
Lemma nudge0_ok : mutator_ok nudge0.
Proof.
  apply (C30_random_ok f1 (fdiv f1 (f64_of_Z 4)) (fun _ k => RD (if (k =? 0)%nat then fhalf else f1) (f64_dy 3 (-2)) (f64_dy 1 (-3)))); [vm_compute; reflexivity|]. intros _ k. cbn [rd_x rd_y].
  split; apply draw01_bool; vm_compute; reflexivity.
Qed.
Definition zero_panic (gf : option fimg) : option (list point * list point * bool * bool * bool) :=
  match gf with None => None | Some fi =>
  match new_genetic (parallel fi insertion_sort) 1 [two 2; two 4; two 8] (new_parallel 3 3) ex_sched [(0, 2)%nat] with None => None | Some (g0, r0) =>
  match genetic_step (parallel fi insertion_sort) 1 swapped ex_sched [(0, 1)%nat] g0 with None => None | Some (g1, r1) =>
  Some (held_points (c_ev (g_core g1)) 0, map (mut_point fi) (nth 0 (members (g_core g1)) []), sortedb (c_fits (g_core g0)) && sortedb (c_fits (g_core g1)) && no_nans r0 && no_nans r1,
    match genetic_step (parallel fi insertion_sort) 1 swapped ex_sched [] g1 with None => false | Some _ => true end,
    match genetic_step (parallel fi insertion_sort) 1 nudge0 ex_sched [] g1 with None => false | Some _ => true end) end end end.
Theorem C60_genetic_zero_refuted : mutator_ok nudge0 /\ zero_panic grad_fi = Some ([Pt 0 3; Pt 3 0], [Pt 6 0; Pt 0 6], true, true, false).
Proof. split; [exact nudge0_ok|]. vm_compute. reflexivity. Qed.
Print Assumptions C60_genetic_zero_refuted.

(** A concrete program: a 6x6 image, two members of five points. *)
Lemma fimg_fuel fuel fuel' im bs fi : new_fimg fuel im bs = Some fi -> exists fi', new_fimg fuel' im bs = Some fi'.
Proof. unfold new_fimg. destruct (from_image im); [|discriminate]. destruct (from_imageN im bs); [|discriminate]. eauto. Qed.
Definition waves : goimage := GoImage 6 6 (fun x y => (257 * ((40 * x + 11 * y) mod 256), 257 * ((70 * y) mod 256), 257 * ((5 * x * y) mod 256))).
Lemma waves_conforming : conforming waves.
Proof.
  intros x y. unfold waves. cbn [g_at]. pose proof (Z.mod_pos_bound (40 * x + 11 * y) 256 ltac:(lia)). pose proof (Z.mod_pos_bound (70 * y) 256 ltac:(lia)). pose proof (Z.mod_pos_bound (5 * x * y) 256 ltac:(lia)). lia.
Qed.
Lemma waves_function : exists d fi, to_data waves = Some d /\ image_function (as_idata d) 2 fi.
Proof.
  destruct (to_data_spec waves ltac:(cbn; lia) ltac:(cbn; lia) waves_conforming) as (d & E & W & H & _). cbn [g_maxx g_maxy waves] in W, H.
  assert (A : exists fi, new_fimg 200 (as_idata d) 2 = Some fi).
  { assert (X : match to_data waves with None => false | Some d => match new_fimg 200 (as_idata d) 2 with None => false | Some _ => true end end = true) by (vm_compute; reflexivity). rewrite E in X. destruct (new_fimg 200 (as_idata d) 2); [eauto|discriminate]. }
  destruct A as (fi0 & A). destruct (fimg_fuel 200 (Z.to_nat (2 ^ 56)) (as_idata d) 2 fi0 A) as (fi & B). exists d, fi. split; [exact E|].
  split; [apply (good_to_data waves d); [cbn; lia|cbn; lia|exact waves_conforming|exact E]|]. change (i_w (as_idata d)) with (d_w d). change (i_h (as_idata d)) with (d_h d). rewrite W, H.
  split; [unfold usual_size; lia|]. repeat (split; [lia|]). exists (Z.to_nat (2 ^ 56)). split; [rewrite Z2Nat.id by lia; lia|exact B].
Qed.
Lemma insertion_hull_sort : hull_sort insertion_sort.
Proof. split; [intros p q q'; apply insertion_sort_perm|exact insertion_sorts_hulls]. Qed.
Lemma two_groups : point_groups 2 5 (repeat pts0 2).
Proof. split; [reflexivity|]. apply (pts_ok pts0). vm_compute. reflexivity. Qed.
Example C60_case : exists d fi c0 c1 c2, to_data waves = Some d /\ image_function (as_idata d) 2 fi /\
  simple_program fi insertion_sort 1 2 5 3 c0 /\ simple_program fi insertion_sort 1 2 5 3 c1 /\ simple_program fi insertion_sort 1 2 5 3 c2 /\
  (exists sw r, simple_step (parallel fi insertion_sort) 1 nudge ex_sched sw c0 = Some (c1, r)) /\ (exists sw r, simple_step (parallel fi insertion_sort) 1 nudge ex_sched sw c1 = Some (c2, r)).
Proof.
  destruct waves_function as (d & fi & E & Him). pose proof insertion_hull_sort as Hs. assert (Hl : Z.of_nat 5 <= 32765) by lia. assert (Hk : (1 <= 3 <= 62)%nat) by lia.
  destruct (new_sorts (as_idata d) 2 fi insertion_sort 1 2 5 3 Him Hs Hl ltac:(lia) Hk (repeat pts0 2) ex_sched ltac:(lia) two_groups ex_sched_ok) as (sw & c0 & r & W & E0 & S0).
  assert (R0 : simple_program fi insertion_sort 1 2 5 3 c0) by (eapply sp_new; [exact two_groups|exact ex_sched_ok|exact E0|intros _; exact S0]).
  destruct (C60_simple_sorts (as_idata d) 2 fi insertion_sort 1 2 5 3 c0 nudge ex_sched Him Hs Hl ltac:(lia) ltac:(lia) Hk ltac:(lia) R0 nudge_ok ex_sched_ok) as (_ & sw1 & c1 & r1 & _ & E1 & _ & R1).
  destruct (C60_simple_sorts (as_idata d) 2 fi insertion_sort 1 2 5 3 c1 nudge ex_sched Him Hs Hl ltac:(lia) ltac:(lia) Hk ltac:(lia) R1 nudge_ok ex_sched_ok) as (_ & sw2 & c2 & r2 & _ & E2 & _ & R2).
  exists d, fi, c0, c1, c2. repeat (split; [assumption|]). split; eauto.
Qed.
