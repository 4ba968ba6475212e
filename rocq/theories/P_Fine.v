(** C89: Calculate and Update may be treated as single events.  Interleaving their steps
    arbitrarily with those of the other workers and of the collecting loop adds nothing. *)
From Coq Require Import ZArith List Bool Lia Arith Permutation.
From Flocq Require Import IEEE754.BinarySingleNaN.
From Verif Require Import GoNum M_Norm M_Slice M_Geom S_Geom M_Image S_Image M_Raster S_Norm M_Delaunay S_Delaunay S_Remove M_Algo S_Algo M_Fitness S_Fitness S_Run S_MemRun S_Sched M_Fine S_Fine.
From Verif Require Import L_Slice L_Algo L_Algo2 L_Hold L_Fit L_Sim L_Fwd L_MemRun2 L_Sched L_Fine L_Fine2 L_Fine3 P_Delaunay P_Remove P_Algo P_AlgoEx P_AlgoEx2 P_Fitness P_Run P_Run2 P_Sched.
Import ListNotations.
Local Open Scope nat_scope.

Section Any.
Context (im : fimg) (srt : point -> list point -> option (list point)) (n pow2 lim : nat) (c : core par).
Hypothesis (Hk : 1 <= pow2 <= 62) (Hl : lim <= n) (Hs : started im n pow2 lim c).
Notation ev := (parallel im srt). Notation N := (Z.of_nat (Nat.pow 2 pow2)). Notation HN := (pow_range pow2 Hk).
Lemma fine_linear t st : fine_run im srt (fine_start lim c) t st -> finished st -> exists s, valid_schedule lim s /\ do_acts ev s (c, []) = Some (fs_core st, fs_res st).
Proof.
  intros R F. destruct Hs as [O Li C Fi P M]. destruct (sim_run im srt lim c Fi t st) as (q & cc & J); [lia|lia|exact R|]. destruct (sim_final im srt lim c q st cc J F) as [V E]. exists q. split; [exact V|].
  rewrite E. apply (j_run _ _ _ _ _ _ _ J).
Qed.
Lemma coarse_any s s' c1 r1 : valid_schedule lim s -> valid_schedule lim s' -> do_acts ev s (c, []) = Some (c1, r1) ->
  exists c2 r2, do_acts ev s' (c, []) = Some (c2, r2) /\ same_algo c1 c2 /\ strip (c_ev c1) = strip (c_ev c2) /\ Permutation r1 r2.
Proof.
  intros V V' E. destruct Hs as [O Li C Fi P M]. destruct (sim_acts ev (bare_ev im srt) strip (par_ok im) (par_calc_sim im srt) (par_upd_sim im srt) (par_prep_sim im srt) s c [] c1 r1 O E) as [_ E1].
  destruct (acts_any (next_tri im srt) (plain_fitness im) (tri_keep im srt) lim s s' (cmap strip c) (cmap strip c1) r1 C V V' E1) as (r2 & E2 & Pm).
  destruct (fwd_acts ev (bare_ev im srt) strip (plive im N) (plive_calc im srt N HN) (plive_upd im srt N HN) (plive_prep im srt N HN) s' c [] _ r2 (clean n) (clean n) Li (dirts_schedule lim n s' Hl V') E2) as (c2 & E3 & E4 & _).
  exists c2, r2. split; [exact E3|]. destruct (cmap_same strip c1 c2 (eq_sym E4)) as [X Y]. auto.
Qed.
Lemma fine_all s c1 r1 : valid_schedule lim s -> do_acts ev s (c, []) = Some (c1, r1) -> forall t st, fine_run im srt (fine_start lim c) t st ->
  (forall a, enabled st a -> fine_step im srt st a <> None) /\ must_end im srt st /\
  (finished st -> same_algo c1 (fs_core st) /\ strip (c_ev c1) = strip (c_ev (fs_core st)) /\ Permutation r1 (fs_res st)).
Proof.
  intros V E t st R. destruct Hs as [O Li C Fi P M]. destruct (sim_run im srt lim c Fi t st) as (q & cc & J); [lia|lia|exact R|]. split; [|split].
  - intros a En. apply (fine_safe im srt lim c Fi q st cc a); [|exact J|exact En]. intros s' V' E'. destruct (coarse_any s s' c1 r1 V V' E) as (c2 & r2 & E2 & _). congruence.
  - apply (fine_ends im srt lim c Fi st). eauto.
  - intros F. destruct (fine_linear t st R F) as (s' & V' & E'). destruct (coarse_any s s' c1 r1 V V' E) as (c2 & r2 & E2 & A & B & D). rewrite E' in E2. injection E2 as <- <-. auto.
Qed.
End Any.

(** C89 for simple.  [c] is a state in which calculateFitnesses is called.  Whatever way the
    steps of the workers, of Prepare and of the Updates are interleaved, when all of it is done
    the members, fitnesses, triangulations, caches and messages are those of an execution in
    which every Calculate and every Update is one event. *)
Theorem C89_simple : forall im srt cutoff n pow2 c t st, 1 <= pow2 <= 62 -> simple_start im srt cutoff n pow2 c -> fine_run im srt (fine_start n c) t st -> finished st ->
  exists s, valid_schedule n s /\ do_acts (parallel im srt) s (c, []) = Some (fs_core st, fs_res st).
Proof. intros im srt cutoff n pow2 c t st Hk S. exact (fine_linear im srt n pow2 n c Hk (le_n n) (simple_started im srt cutoff n pow2 Hk c S) t st). Qed.
Print Assumptions C89_simple.
(** And if one execution of that kind returns, then no step of any interleaved execution panics,
    none goes on for ever, and all of them end with the same members, fitnesses and
    triangulations as that one. *)
Theorem C89_simple_total : forall im srt cutoff n pow2 c s c1 r1, 1 <= pow2 <= 62 -> simple_start im srt cutoff n pow2 c -> valid_schedule n s -> do_acts (parallel im srt) s (c, []) = Some (c1, r1) ->
  forall t st, fine_run im srt (fine_start n c) t st ->
  (forall a, enabled st a -> fine_step im srt st a <> None) /\ must_end im srt st /\
  (finished st -> same_algo c1 (fs_core st) /\ strip (c_ev c1) = strip (c_ev (fs_core st)) /\ Permutation r1 (fs_res st)).
Proof. intros im srt cutoff n pow2 c s c1 r1 Hk S. exact (fine_all im srt n pow2 n c Hk (le_n n) (simple_started im srt cutoff n pow2 Hk c S) s c1 r1). Qed.
Print Assumptions C89_simple_total.

(** C89 for modifiedGenetic, which starts workers for all members but the last [cutoff]. *)
Theorem C89_genetic : forall im srt cutoff n l pow2 c t st, 1 <= pow2 <= 62 -> good_size (fi_w im) (fi_h im) -> (forall p q q', srt p q = Some q' -> Permutation q q') -> (Z.of_nat l <= 65535)%Z -> cutoff <> 0 -> 2 * cutoff <= n ->
  genetic_start im srt cutoff n l pow2 c -> fine_run im srt (fine_start (n - cutoff) c) t st -> finished st ->
  exists s, valid_schedule (n - cutoff) s /\ do_acts (parallel im srt) s (c, []) = Some (fs_core st, fs_res st).
Proof. intros im srt cutoff n l pow2 c t st Hk Hz Hs Hl Hc H2 S. exact (fine_linear im srt n pow2 (n - cutoff) c Hk (Nat.le_sub_l n cutoff) (genetic_started im srt cutoff n l pow2 Hk Hz Hs Hl Hc H2 c S) t st). Qed.
Print Assumptions C89_genetic.
Theorem C89_genetic_total : forall im srt cutoff n l pow2 c s c1 r1, 1 <= pow2 <= 62 -> good_size (fi_w im) (fi_h im) -> (forall p q q', srt p q = Some q' -> Permutation q q') -> (Z.of_nat l <= 65535)%Z -> cutoff <> 0 -> 2 * cutoff <= n ->
  genetic_start im srt cutoff n l pow2 c -> valid_schedule (n - cutoff) s -> do_acts (parallel im srt) s (c, []) = Some (c1, r1) ->
  forall t st, fine_run im srt (fine_start (n - cutoff) c) t st ->
  (forall a, enabled st a -> fine_step im srt st a <> None) /\ must_end im srt st /\
  (finished st -> same_algo c1 (fs_core st) /\ strip (c_ev c1) = strip (c_ev (fs_core st)) /\ Permutation r1 (fs_res st)).
Proof. intros im srt cutoff n l pow2 c s c1 r1 Hk Hz Hs Hl Hc H2 S. exact (fine_all im srt n pow2 (n - cutoff) c Hk (Nat.le_sub_l n cutoff) (genetic_started im srt cutoff n l pow2 Hk Hz Hs Hl Hc H2 c S) s c1 r1). Qed.
Print Assumptions C89_genetic_total.

(** * A case: the second generation of the run of C28, the two workers taking turns. *)
Definition enabledb (st : fstate) (a : fact) : bool :=
  match a with
  | FWork i => match nth_error (fs_work st) i with Some (FDone _) | None => false | Some _ => true end
  | FPrep => negb (fs_prep st)
  | FRecv i => fs_prep st && match fs_main st with None => true | _ => false end && match result (fs_res st) i with None => false | _ => true end && negb (existsb (Nat.eqb i) (fs_got st))
  | FUpd => match fs_main st with None => false | _ => true end
  end.
Lemma enabledb_ok st a : enabledb st a = true <-> enabled st a.
Proof.
  destruct a as [i| |i|]; cbn [enabledb enabled].
  - destruct (nth_error (fs_work st) i) as [ph|]; [|split; [discriminate|intros (ph & H & _); discriminate]]. split.
    + intros H. exists ph. split; [reflexivity|]. intros v ->. discriminate.
    + intros (ph' & [= <-] & H). destruct ph; try reflexivity. exfalso. apply (H v). reflexivity.
  - apply negb_true_iff.
  - rewrite !andb_true_iff, negb_true_iff. assert (X : existsb (Nat.eqb i) (fs_got st) = false <-> ~ In i (fs_got st)).
    { rewrite <- not_true_iff_false, existsb_exists. split; intros H K; apply H; [exists i; split; [exact K|apply Nat.eqb_refl]|]. destruct K as (x & K & E). apply Nat.eqb_eq in E. subst x. exact K. }
    rewrite X. destruct (fs_main st), (result (fs_res st) i); intuition (try discriminate; try congruence).
  - destruct (fs_main st); intuition congruence.
Qed.
(** Takes those steps of [l] that are enabled when their turn comes. *)
Fixpoint go (im : fimg) (srt : point -> list point -> option (list point)) (l : list fact) (x : fstate * list fact) : option (fstate * list fact) :=
  match l with
  | [] => Some x
  | a :: l' => if enabledb (fst x) a then match fine_step im srt (fst x) a with None => None | Some st => go im srt l' (st, snd x ++ [a]) end else go im srt l' x
  end.
Lemma go_run im srt st0 l : forall st t st' t', fine_run im srt st0 t st -> go im srt l (st, t) = Some (st', t') -> fine_run im srt st0 t' st'.
Proof.
  induction l as [|a l IH]; intros st t st' t' R; cbn [go fst snd]; [intros [= <- <-]; exact R|]. destruct (enabledb st a) eqn:En; [|apply IH, R]. destruct (fine_step im srt st a) as [st1|] eqn:E; [|discriminate].
  apply IH. apply (fr_snoc im srt st0 t st a st1 R); [apply enabledb_ok, En|exact E].
Qed.
Definition turns : list fact := concat (repeat [FWork 0; FWork 1; FPrep; FUpd; FRecv 1; FRecv 0] 60).
Definition fine_case (gf : option fimg) : option (fstate * list fact * core par * core par) :=
  match gf with None => None | Some fi =>
  match new_simple (parallel fi insertion_sort) (repeat pts0 2) (new_parallel 2 3) ex_sched [] with None => None | Some (c0, _) =>
  match new_generation (parallel fi insertion_sort) nudge 1 2 c0 with None => None | Some c =>
  match go fi insertion_sort turns (fine_start 2 c, []), do_acts (parallel fi insertion_sort) ex_sched (c, []) with
  | Some (st, t), Some (c1, _) => Some (st, t, c, c1)
  | _, _ => None
  end end end end.
(** No step of two workers is left. *)
Definition quietb (st : fstate) : bool := negb (existsb (enabledb st) [FWork 0; FWork 1; FPrep; FRecv 0; FRecv 1; FUpd]) && (length (fs_work st) =? 2) && forallb (fun x => fst x <? 2) (fs_res st).
Lemma quiet_ok st : quietb st = true -> finished st.
Proof.
  unfold quietb. rewrite !andb_true_iff. intros [[B2 B3] B4]. apply negb_true_iff in B2. cbn [existsb] in B2. rewrite !orb_false_iff in B2. destruct B2 as (W0 & W1 & P & R0 & R1' & U & _). intros a En. apply enabledb_ok in En. destruct a as [i| |i|].
  - destruct i as [|[|i]]; [congruence|congruence|]. cbn [enabledb] in En. apply Nat.eqb_eq in B3. rewrite (proj2 (nth_error_None (fs_work st) (S (S i)))) in En by lia. discriminate.
  - congruence.
  - destruct i as [|[|i]]; [congruence|congruence|]. cbn [enabledb] in En. rewrite !andb_true_iff in En. destruct En as [[_ En] _]. unfold result in En.
    destruct (find _ (fs_res st)) as [x|] eqn:Fx; [|discriminate]. apply find_some in Fx as [I X]. rewrite forallb_forall in B4. apply B4 in I. apply Nat.ltb_lt in I. apply Nat.eqb_eq in X. lia.
  - congruence.
Qed.
Definition fine_check (gf : option fimg) : bool :=
  match fine_case gf with None => false | Some (st, t, _, c1) =>
  forallb (fun x => Z.eqb (micros (fst x)) (micros (snd x))) (combine (c_fits (fs_core st)) (c_fits c1)) && quietb st &&
  match t with FWork 0 :: FWork 1 :: FPrep :: FWork 0 :: FWork 1 :: FWork 0 :: FWork 1 :: FWork 0 :: FWork 1 :: _ => true | _ => false end && (20 <? length t) end.
(** The steps: both workers copy the triangulation of the best member, remove, insert, sum up
    the triangles, in turns; worker 0 has delivered and its cache is being stored while worker 1
    still reads the cache array. *)
Example C89_interleaved : option_map (fun x => map (fun a => match a with FWork i => i | FPrep => 10 | FRecv i => 20 + i | FUpd => 30 end) (snd (fst (fst x)))) (fine_case grad_fi) =
  Some [0; 1; 10; 0; 1; 0; 1; 0; 1; 0; 1; 0; 1; 0; 1; 20; 1; 30; 1; 30; 1; 30; 1; 30; 1; 30; 1; 1; 1; 1; 21; 30; 30; 30; 30; 30].
Proof. vm_compute. reflexivity. Qed.
Lemma fine_checked : fine_check grad_fi = true.
Proof. vm_compute. reflexivity. Qed.
Lemma fine_case_ok gf : fine_check gf = true -> exists fi c t st c1 r1, gf = Some fi /\ simple_start fi insertion_sort 1 2 3 c /\ fine_run fi insertion_sort (fine_start 2 c) t st /\ finished st /\ 20 < length t /\
  do_acts (parallel fi insertion_sort) ex_sched (c, []) = Some (c1, r1) /\ forall i f f1, nth_error (c_fits (fs_core st)) i = Some f -> nth_error (c_fits c1) i = Some f1 -> micros f = micros f1.
Proof.
  unfold fine_check, fine_case. destruct gf as [fi|]; [|discriminate]. destruct (new_simple _ _ _ _ _) as [[c0 r0]|] eqn:E0; [|discriminate]. destruct (new_generation _ _ _ _ _) as [c|] eqn:E1; [|discriminate].
  destruct (go _ _ _ _) as [[st t]|] eqn:E2; [|discriminate]. destruct (do_acts _ _ _) as [[c1 r1]|] eqn:E3; [|discriminate]. rewrite !andb_true_iff. intros [[[B1 B2] _] B6].
  exists fi, c, t, st, c1, r1. split; [reflexivity|]. split; [|split; [|split; [|split; [apply Nat.ltb_lt, B6|split; [exact E3|]]]]].
  - apply (st_step fi insertion_sort 1 2 3 c0 nudge c); [|exact E1]. apply (ss_new _ _ _ _ _ (repeat pts0 2) ex_sched [] c0 r0); [reflexivity|apply ex_sched_ok|exact E0].
  - apply (go_run fi insertion_sort _ turns (fine_start 2 c) [] st t); [constructor|exact E2].
  - apply quiet_ok, B2.
  - intros i f f1 F G. assert (X : nth_error (combine (c_fits (fs_core st)) (c_fits c1)) i = Some (f, f1)).
    { clear - F G. revert F G. generalize (c_fits (fs_core st)), (c_fits c1). induction i as [|i IH]; intros [|a l] [|b k]; cbn; try discriminate; [intros [= ->] [= ->]; reflexivity|apply IH]. }
    rewrite forallb_forall in B1. apply nth_error_In in X. apply B1 in X. apply Z.eqb_eq in X. exact X.
Qed.
Example C89_example : exists fi c t st c1 r1, grad_fi = Some fi /\ simple_start fi insertion_sort 1 2 3 c /\ fine_run fi insertion_sort (fine_start 2 c) t st /\ finished st /\ 20 < length t /\
  do_acts (parallel fi insertion_sort) ex_sched (c, []) = Some (c1, r1) /\ forall i f f1, nth_error (c_fits (fs_core st)) i = Some f -> nth_error (c_fits c1) i = Some f1 -> micros f = micros f1.
Proof. apply fine_case_ok, fine_checked. Qed.
(** modifiedGenetic, three members, the workers of two of them. *)
Definition fine_gcheck (gf : option fimg) : bool :=
  match gf with None => false | Some fi =>
  match new_genetic (parallel fi insertion_sort) 1 (repeat pts0 3) (new_parallel 3 3) ex_sched [] with None => false | Some (g0, r0) =>
  (fi_w fi =? 6)%Z && (fi_h fi =? 6)%Z && sortedb (c_fits (g_core g0)) && all_pos r0 &&
  match new_generation (parallel fi insertion_sort) nudge 1 2 (g_core g0) with None => false | Some c =>
  match go fi insertion_sort turns (fine_start 2 c, []) with None => false | Some (st, t) =>
  quietb st && (20 <? length t) end end end end.
Lemma fine_gchecked : fine_gcheck grad_fi = true.
Proof. vm_compute. reflexivity. Qed.
Lemma fine_gcase_ok gf : fine_gcheck gf = true -> exists fi c t st, gf = Some fi /\ good_size (fi_w fi) (fi_h fi) /\ genetic_start fi insertion_sort 1 3 5 3 c /\ fine_run fi insertion_sort (fine_start (3 - 1) c) t st /\ finished st /\ 20 < length t.
Proof.
  unfold fine_gcheck. destruct gf as [fi|]; [|discriminate]. destruct (new_genetic _ _ _ _ _ _) as [[g0 r0]|] eqn:E0; [|discriminate]. rewrite !andb_true_iff. intros [[[[W H] S0] N0] B].
  destruct (new_generation _ _ _ _ _) as [c|] eqn:E1; [|discriminate]. destruct (go _ _ _ _) as [[st t]|] eqn:E2; [|discriminate]. apply andb_true_iff in B as [B1 B2]. apply Z.eqb_eq in W, H.
  exists fi, c, t, st. split; [reflexivity|]. split; [rewrite W, H; unfold good_size; lia|]. split; [|split; [|split; [apply quiet_ok, B1|apply Nat.ltb_lt, B2]]].
  - apply (gst_step fi insertion_sort 1 3 5 3 g0 nudge c); [|exact E1]. eapply gr_new; [| | |exact E0| |]; [reflexivity|apply (pts_ok pts0); vm_compute; reflexivity|apply ex_sched_ok|apply sortedb_ok, S0|apply all_pos_ok, N0].
  - apply (go_run fi insertion_sort _ turns (fine_start 2 c) [] st t); [constructor|exact E2].
Qed.
Example C89_genetic_example : exists fi c t st, grad_fi = Some fi /\ good_size (fi_w fi) (fi_h fi) /\ genetic_start fi insertion_sort 1 3 5 3 c /\ fine_run fi insertion_sort (fine_start (3 - 1) c) t st /\ finished st /\ 20 < length t.
Proof. apply fine_gcase_ok, fine_gchecked. Qed.
