(** C91: Calculate and Update of the polygon functions may be treated as single events, and no
    cache array is written while a worker may read it. *)
From Coq Require Import ZArith List Bool Lia Arith Permutation.
From Flocq Require Import IEEE754.BinarySingleNaN.
From Verif Require Import GoNum M_Norm M_Slice M_Geom S_Geom M_Image S_Image M_Raster S_Norm M_Delaunay S_Delaunay S_Remove M_Algo S_Algo M_Fitness S_Fitness S_Run S_Run2 S_MemRun M_Voronoi S_Voronoi M_Polygons S_Polygons S_PolyRun S_PolyProg M_Fine M_PFine S_PFine.
From Verif Require Import L_Slice L_Algo L_Algo2 L_Hold L_Fit L_Sim L_Fwd L_Poly L_PFwd L_PFine L_PFine2 L_PRace L_PFine3 P_Delaunay P_Remove P_Algo P_AlgoEx P_AlgoEx2 P_Fitness P_Run P_Run2 P_PolyRun P_PolyProg.
Import ListNotations.
Local Open Scope nat_scope.

Lemma stripped_same p q : pstrip p = pstrip q -> same_diagrams p q.
Proof. unfold pstrip, same_diagrams. intros [= A B]. auto. Qed.

Section Any.
Context (im : idata) (bs : Z) (fi : fimg) (srt : sorter) (hsrt : point -> list point -> option (list point)) (cutoff n l pow2 lim : nat) (c : core ppar).
Hypothesis (U : usual_program im bs fi srt hsrt cutoff n l pow2) (Hl : lim <= n) (Hs : vstarted fi srt n l pow2 lim c).
Notation ev := (pparallel fi srt hsrt).
Lemma vfine_linear t st : vfine_run fi srt hsrt (vfine_start lim c) t st -> vfinished st -> exists s, valid_schedule lim s /\ do_acts ev s (c, []) = Some (vs_core st, vs_res st).
Proof.
  intros R F. destruct Hs as [_ _ _ _ Fi P M]. destruct (sim_run fi srt hsrt lim c Fi t st) as (q & cc & J); [lia|lia|exact R|]. destruct (sim_final fi srt hsrt lim c q st cc J F) as [V E]. exists q. split; [exact V|].
  rewrite E. apply (j_run _ _ _ _ _ _ _ _ J).
Qed.
Lemma vcoarse s s' c1 r1 : valid_schedule lim s -> valid_schedule lim s' -> do_acts ev s (c, []) = Some (c1, r1) ->
  exists c2 r2, do_acts ev s' (c, []) = Some (c2, r2) /\ same_algo c1 c2 /\ pstrip (c_ev c1) = pstrip (c_ev c2) /\ Permutation r1 r2.
Proof. destruct U as (Him & SO & Hh & Hl' & Hcut & Hk & Hn). exact (pcoarse_any im bs fi srt hsrt cutoff n l pow2 Him SO Hh Hl' Hcut Hk lim c Hl Hs s s' c1 r1). Qed.
Lemma vfine_all s c1 r1 : valid_schedule lim s -> do_acts ev s (c, []) = Some (c1, r1) -> forall t st, vfine_run fi srt hsrt (vfine_start lim c) t st ->
  (forall a, venabled st a -> vfine_step fi srt hsrt st a <> None) /\ vmust_end fi srt hsrt st /\
  (vfinished st -> same_algo c1 (vs_core st) /\ same_diagrams (c_ev c1) (c_ev (vs_core st)) /\ Permutation r1 (vs_res st)).
Proof.
  intros V E t st R. pose proof (vd_fit _ _ _ _ _ _ _ Hs) as Fi. pose proof (vd_pop _ _ _ _ _ _ _ Hs) as P. pose proof (vd_muts _ _ _ _ _ _ _ Hs) as M.
  destruct (sim_run fi srt hsrt lim c Fi t st) as (q & cc & J); [lia|lia|exact R|]. split; [|split].
  - intros a En. apply (fine_safe fi srt hsrt lim c Fi q st cc a); [|exact J|exact En]. intros s' V' E'. destruct (vcoarse s s' c1 r1 V V' E) as (c2 & r2 & E2 & _). congruence.
  - apply (fine_ends fi srt hsrt lim c Fi st). eauto.
  - intros F. destruct (vfine_linear t st R F) as (s' & V' & E'). destruct (vcoarse s s' c1 r1 V V' E) as (c2 & r2 & E2 & A & B & D). rewrite E' in E2. injection E2 as <- <-. apply stripped_same in B. auto.
Qed.
Lemma pseen_some p j : L_PRace.ready n lim p -> j < lim -> pcache_seen p j <> None.
Proof.
  intros [W T] Hj. unfold pcache_seen. destruct (pw_at _ _ W j ltac:(lia)) as (id & f & A). specialize (T j Hj). unfold tag in T. rewrite A in *. cbn [option_map snd] in T.
  destruct T as [T|T]; injection T as T; rewrite T; cbn [pcache_view option_map]; [discriminate|]. pose proof (pw_cur _ _ W) as C. pose proof (pw_arrs _ _ W) as L.
  destruct (nth_error (pp_arrs p) (pp_cur p)) eqn:E; [discriminate|]. apply nth_error_None in E. lia.
Qed.
Lemma pundist l1 l2 c2 r j : valid_schedule lim (l1 ++ l2) -> do_acts ev l1 (c, []) = Some (c2, r) -> j < lim -> ~ In (Calc j) l1 -> pundisturbed (c_ev c) l1 (c_ev c2) j.
Proof.
  intros Hv H Hj N. pose proof (vd_race _ _ _ _ _ _ _ Hs) as R. destruct (rinv_seen n lim (c_ev c) l1 (c_ev c2) j Hl R) as (A & B & C); [eapply race_prefix; eauto|exact Hj|exact N|].
  unfold pundisturbed. rewrite A. split; [reflexivity|]. split; [apply pseen_some; assumption|]. auto.
Qed.
End Any.

(** C91 for simple.  [c] is a state in which calculateFitnesses is called.  Whatever way the
    steps of the workers, of Prepare and of the Updates are interleaved, when all of it is done
    the members, fitnesses, diagrams, caches and messages are those of an execution in which
    every Calculate and every Update is one event. *)
Theorem C91_simple : forall im bs fi srt hsrt cutoff n l pow2 c t st, usual_program im bs fi srt hsrt cutoff n l pow2 -> polygon_start fi srt hsrt cutoff n l pow2 c ->
  vfine_run fi srt hsrt (vfine_start n c) t st -> vfinished st ->
  exists s, valid_schedule n s /\ do_acts (pparallel fi srt hsrt) s (c, []) = Some (vs_core st, vs_res st).
Proof.
  intros im bs fi srt hsrt cutoff n l pow2 c t st (Him & SO & Hh & Hl & Hcut & Hk & Hn) S.
  exact (vfine_linear fi srt hsrt n l pow2 n c (le_n n) (polygon_started im bs fi srt hsrt cutoff n l pow2 Him SO Hh Hl Hcut Hk c S) t st).
Qed.
Print Assumptions C91_simple.
(** And if one execution of that kind returns, then no step of any interleaved execution panics,
    none goes on for ever, and all of them end with the same members, fitnesses and diagrams as
    that one. *)
Theorem C91_simple_total : forall im bs fi srt hsrt cutoff n l pow2 c s c1 r1, usual_program im bs fi srt hsrt cutoff n l pow2 -> polygon_start fi srt hsrt cutoff n l pow2 c ->
  valid_schedule n s -> do_acts (pparallel fi srt hsrt) s (c, []) = Some (c1, r1) ->
  forall t st, vfine_run fi srt hsrt (vfine_start n c) t st ->
  (forall a, venabled st a -> vfine_step fi srt hsrt st a <> None) /\ vmust_end fi srt hsrt st /\
  (vfinished st -> same_algo c1 (vs_core st) /\ same_diagrams (c_ev c1) (c_ev (vs_core st)) /\ Permutation r1 (vs_res st)).
Proof.
  intros im bs fi srt hsrt cutoff n l pow2 c s c1 r1 U S. pose proof U as (Him & SO & Hh & Hl & Hcut & Hk & Hn).
  exact (vfine_all im bs fi srt hsrt cutoff n l pow2 n c U (le_n n) (polygon_started im bs fi srt hsrt cutoff n l pow2 Him SO Hh Hl Hcut Hk c S) s c1 r1).
Qed.
Print Assumptions C91_simple_total.
(** Until worker [j] has run, its cache array is the one it had at the start, and no result is
    written into it. *)
Theorem C91_simple_arrays : forall im bs fi srt hsrt cutoff n l pow2 c l1 l2 c2 r j, usual_program im bs fi srt hsrt cutoff n l pow2 -> polygon_start fi srt hsrt cutoff n l pow2 c ->
  valid_schedule n (l1 ++ l2) -> do_acts (pparallel fi srt hsrt) l1 (c, []) = Some (c2, r) -> j < n -> ~ In (Calc j) l1 -> pundisturbed (c_ev c) l1 (c_ev c2) j.
Proof.
  intros im bs fi srt hsrt cutoff n l pow2 c l1 l2 c2 r j (Him & SO & Hh & Hl & Hcut & Hk & Hn) S.
  exact (pundist fi srt hsrt n l pow2 n c (le_n n) (polygon_started im bs fi srt hsrt cutoff n l pow2 Him SO Hh Hl Hcut Hk c S) l1 l2 c2 r j).
Qed.
Print Assumptions C91_simple_arrays.

(** C91 for modifiedGenetic, which starts workers for all members but the last [cutoff]. *)
Theorem C91_genetic : forall im bs fi srt hsrt cutoff n l pow2 c t st, usual_program im bs fi srt hsrt cutoff n l pow2 -> 2 * cutoff <= n -> polygon_gstart fi srt hsrt cutoff n l pow2 c ->
  vfine_run fi srt hsrt (vfine_start (n - cutoff) c) t st -> vfinished st ->
  exists s, valid_schedule (n - cutoff) s /\ do_acts (pparallel fi srt hsrt) s (c, []) = Some (vs_core st, vs_res st).
Proof.
  intros im bs fi srt hsrt cutoff n l pow2 c t st (Him & SO & Hh & Hl & Hcut & Hk & Hn) H2 S.
  exact (vfine_linear fi srt hsrt n l pow2 (n - cutoff) c (Nat.le_sub_l n cutoff) (polygon_gstarted im bs fi srt hsrt cutoff n l pow2 Him SO Hh Hl Hcut Hk H2 c S) t st).
Qed.
Print Assumptions C91_genetic.
Theorem C91_genetic_total : forall im bs fi srt hsrt cutoff n l pow2 c s c1 r1, usual_program im bs fi srt hsrt cutoff n l pow2 -> 2 * cutoff <= n -> polygon_gstart fi srt hsrt cutoff n l pow2 c ->
  valid_schedule (n - cutoff) s -> do_acts (pparallel fi srt hsrt) s (c, []) = Some (c1, r1) ->
  forall t st, vfine_run fi srt hsrt (vfine_start (n - cutoff) c) t st ->
  (forall a, venabled st a -> vfine_step fi srt hsrt st a <> None) /\ vmust_end fi srt hsrt st /\
  (vfinished st -> same_algo c1 (vs_core st) /\ same_diagrams (c_ev c1) (c_ev (vs_core st)) /\ Permutation r1 (vs_res st)).
Proof.
  intros im bs fi srt hsrt cutoff n l pow2 c s c1 r1 U H2 S. pose proof U as (Him & SO & Hh & Hl & Hcut & Hk & Hn).
  exact (vfine_all im bs fi srt hsrt cutoff n l pow2 (n - cutoff) c U (Nat.le_sub_l n cutoff) (polygon_gstarted im bs fi srt hsrt cutoff n l pow2 Him SO Hh Hl Hcut Hk H2 c S) s c1 r1).
Qed.
Print Assumptions C91_genetic_total.
Theorem C91_genetic_arrays : forall im bs fi srt hsrt cutoff n l pow2 c l1 l2 c2 r j, usual_program im bs fi srt hsrt cutoff n l pow2 -> 2 * cutoff <= n -> polygon_gstart fi srt hsrt cutoff n l pow2 c ->
  valid_schedule (n - cutoff) (l1 ++ l2) -> do_acts (pparallel fi srt hsrt) l1 (c, []) = Some (c2, r) -> j < n - cutoff -> ~ In (Calc j) l1 -> pundisturbed (c_ev c) l1 (c_ev c2) j.
Proof.
  intros im bs fi srt hsrt cutoff n l pow2 c l1 l2 c2 r j (Him & SO & Hh & Hl & Hcut & Hk & Hn) H2 S.
  exact (pundist fi srt hsrt n l pow2 (n - cutoff) c (Nat.le_sub_l n cutoff) (polygon_gstarted im bs fi srt hsrt cutoff n l pow2 Him SO Hh Hl Hcut Hk H2 c S) l1 l2 c2 r j).
Qed.
Print Assumptions C91_genetic_arrays.

(** * A case: the second generation of the run of C68, the two workers taking turns. *)
Definition venabledb (st : vstate) (a : vact) : bool :=
  match a with
  | VWork i => match nth_error (vs_work st) i with Some (VDone _) | None => false | Some _ => true end
  | VPrep => negb (vs_prep st)
  | VRecv i => vs_prep st && match vs_main st with None => true | _ => false end && match result (vs_res st) i with None => false | _ => true end && negb (existsb (Nat.eqb i) (vs_got st))
  | VUpd => match vs_main st with None => false | _ => true end
  end.
Lemma venabledb_ok st a : venabledb st a = true <-> venabled st a.
Proof.
  destruct a as [i| |i|]; cbn [venabledb venabled].
  - destruct (nth_error (vs_work st) i) as [ph|]; [|split; [discriminate|intros (ph & H & _); discriminate]]. split.
    + intros H. exists ph. split; [reflexivity|]. intros v ->. discriminate.
    + intros (ph' & [= <-] & H). destruct ph; try reflexivity. exfalso. apply (H v). reflexivity.
  - apply negb_true_iff.
  - rewrite !andb_true_iff, negb_true_iff. assert (X : existsb (Nat.eqb i) (vs_got st) = false <-> ~ In i (vs_got st)).
    { rewrite <- not_true_iff_false, existsb_exists. split; intros H K; apply H; [exists i; split; [exact K|apply Nat.eqb_refl]|]. destruct K as (x & K & E). apply Nat.eqb_eq in E. subst x. exact K. }
    rewrite X. destruct (vs_main st), (result (vs_res st) i); intuition (try discriminate; try congruence).
  - destruct (vs_main st); intuition congruence.
Qed.
(** Takes those steps of [l] that are enabled when their turn comes. *)
Fixpoint vgo (im : fimg) (srt : sorter) (hsrt : point -> list point -> option (list point)) (l : list vact) (x : vstate * list vact) : option (vstate * list vact) :=
  match l with
  | [] => Some x
  | a :: l' => if venabledb (fst x) a then match vfine_step im srt hsrt (fst x) a with None => None | Some st => vgo im srt hsrt l' (st, snd x ++ [a]) end else vgo im srt hsrt l' x
  end.
Lemma vgo_run im srt hsrt st0 l : forall st t st' t', vfine_run im srt hsrt st0 t st -> vgo im srt hsrt l (st, t) = Some (st', t') -> vfine_run im srt hsrt st0 t' st'.
Proof.
  induction l as [|a l IH]; intros st t st' t' R; cbn [vgo fst snd]; [intros [= <- <-]; exact R|]. destruct (venabledb st a) eqn:En; [|apply IH, R]. destruct (vfine_step im srt hsrt st a) as [st1|] eqn:E; [|discriminate].
  apply IH. apply (vr_snoc im srt hsrt st0 t st a st1 R); [apply venabledb_ok, En|exact E].
Qed.
Definition vturns : list vact := concat (repeat [VWork 0; VWork 1; VPrep; VUpd; VRecv 1; VRecv 0] 60).
Definition vfine_case (gf : option fimg) : option (vstate * list vact * core ppar * core ppar) :=
  match gf with None => None | Some fi =>
  match new_simple (pev fi) (repeat pts3 2) (new_pparallel 2 3) ex_sched [] with None => None | Some (c0, _) =>
  if sortedb (c_fits c0) then
  match new_generation (pev fi) nudge 1 2 c0 with None => None | Some c =>
  match vgo fi slice_sort insertion_sort vturns (vfine_start 2 c, []), do_acts (pev fi) ex_sched (c, []) with
  | Some (st, t), Some (c1, _) => Some (st, t, c, c1)
  | _, _ => None
  end end else None end end.
(** No step of two workers is left. *)
Definition vquietb (st : vstate) : bool := negb (existsb (venabledb st) [VWork 0; VWork 1; VPrep; VRecv 0; VRecv 1; VUpd]) && (length (vs_work st) =? 2) && forallb (fun x => fst x <? 2) (vs_res st).
Lemma vquiet_ok st : vquietb st = true -> vfinished st.
Proof.
  unfold vquietb. rewrite !andb_true_iff. intros [[B2 B3] B4]. apply negb_true_iff in B2. cbn [existsb] in B2. rewrite !orb_false_iff in B2. destruct B2 as (W0 & W1 & P & R0 & R1' & U & _). intros a En. apply venabledb_ok in En. destruct a as [i| |i|].
  - destruct i as [|[|i]]; [congruence|congruence|]. cbn [venabledb] in En. apply Nat.eqb_eq in B3. rewrite (proj2 (nth_error_None (vs_work st) (S (S i)))) in En by lia. discriminate.
  - congruence.
  - destruct i as [|[|i]]; [congruence|congruence|]. cbn [venabledb] in En. rewrite !andb_true_iff in En. destruct En as [[_ En] _]. unfold result in En.
    destruct (find _ (vs_res st)) as [x|] eqn:Fx; [|discriminate]. apply find_some in Fx as [I X]. rewrite forallb_forall in B4. apply B4 in I. apply Nat.ltb_lt in I. apply Nat.eqb_eq in X. lia.
  - congruence.
Qed.
Definition vfine_check (gf : option fimg) : bool :=
  match vfine_case gf with None => false | Some (st, t, _, c1) =>
  forallb (fun x => Z.eqb (micros (fst x)) (micros (snd x))) (combine (c_fits (vs_core st)) (c_fits c1)) && vquietb st &&
  match t with VWork 0 :: VWork 1 :: VPrep :: VWork 0 :: VWork 1 :: VWork 0 :: VWork 1 :: VWork 0 :: VWork 1 :: _ => true | _ => false end && (20 <? length t) end.
(** The steps: both workers copy the diagram of the best member, field by field, remove, insert
    and go through the polygons, in turns; the cache of worker 0 is being stored while worker 1
    still reads the cache array. *)
Example C91_interleaved : option_map (fun x => map (fun a => match a with VWork i => i | VPrep => 10 | VRecv i => 20 + i | VUpd => 30 end) (snd (fst (fst x)))) (vfine_case grad_fi) =
  Some [0; 1; 10; 0; 1; 0; 1; 0; 1; 0; 1; 0; 1; 0; 1; 0; 1; 20; 1; 30; 1; 30; 1; 30; 1; 30; 1; 30; 1; 30; 1; 1; 1; 1; 21; 30; 30; 30; 30; 30; 30].
Proof. vm_compute. reflexivity. Qed.
Lemma vfine_checked : vfine_check grad_fi = true.
Proof. vm_compute. reflexivity. Qed.
Lemma vfine_case_ok gf : vfine_check gf = true -> exists fi c t st c1 r1, gf = Some fi /\ polygon_start fi slice_sort insertion_sort 1 2 5 3 c /\ vfine_run fi slice_sort insertion_sort (vfine_start 2 c) t st /\ vfinished st /\ 20 < length t /\
  do_acts (pev fi) ex_sched (c, []) = Some (c1, r1) /\ forall i f f1, nth_error (c_fits (vs_core st)) i = Some f -> nth_error (c_fits c1) i = Some f1 -> micros f = micros f1.
Proof.
  unfold vfine_check, vfine_case. destruct gf as [fi|]; [|discriminate]. destruct (new_simple _ _ _ _ _) as [[c0 r0]|] eqn:E0; [|discriminate]. destruct (sortedb (c_fits c0)) eqn:S0; [|discriminate]. destruct (new_generation _ _ _ _ _) as [c|] eqn:E1; [|discriminate].
  destruct (vgo _ _ _ _ _) as [[st t]|] eqn:E2; [|discriminate]. destruct (do_acts _ _ _) as [[c1 r1]|] eqn:E3; [|discriminate]. rewrite !andb_true_iff. intros [[[B1 B2] _] B6].
  exists fi, c, t, st, c1, r1. split; [reflexivity|]. split; [|split; [|split; [|split; [apply Nat.ltb_lt, B6|split; [exact E3|]]]]].
  - apply (ps_step fi slice_sort insertion_sort 1 2 5 3 c0 nudge c); [|apply nudge_ok|exact E1]. apply (pg_new _ _ _ _ _ _ _ (repeat pts3 2) ex_sched [] c0 r0); [exact pts3_groups|apply ex_sched_ok|exact E0|]. intros _. apply sortedb_ok, S0.
  - apply (vgo_run fi slice_sort insertion_sort _ vturns (vfine_start 2 c) [] st t); [constructor|exact E2].
  - apply vquiet_ok, B2.
  - intros i f f1 F G. assert (X : nth_error (combine (c_fits (vs_core st)) (c_fits c1)) i = Some (f, f1)).
    { clear - F G. revert F G. generalize (c_fits (vs_core st)), (c_fits c1). induction i as [|i IH]; intros [|a l] [|b k]; cbn; try discriminate; [intros [= ->] [= ->]; reflexivity|apply IH]. }
    rewrite forallb_forall in B1. apply nth_error_In in X. apply B1 in X. apply Z.eqb_eq in X. exact X.
Qed.
Example C91_example : exists fi c t st c1 r1, grad_fi = Some fi /\ polygon_start fi slice_sort insertion_sort 1 2 5 3 c /\ vfine_run fi slice_sort insertion_sort (vfine_start 2 c) t st /\ vfinished st /\ 20 < length t /\
  do_acts (pev fi) ex_sched (c, []) = Some (c1, r1) /\ forall i f f1, nth_error (c_fits (vs_core st)) i = Some f -> nth_error (c_fits c1) i = Some f1 -> micros f = micros f1.
Proof. apply vfine_case_ok, vfine_checked. Qed.

(** modifiedGenetic, three members, the workers of two of them. *)
Definition vfine_gcheck (gf : option fimg) : bool :=
  match gf with None => false | Some fi =>
  match new_genetic (pev fi) 1 (repeat pts3 3) (new_pparallel 3 3) ex_sched [] with None => false | Some (g0, r0) =>
  sortedb (c_fits (g_core g0)) && all_pos r0 &&
  match new_generation (pev fi) nudge 1 2 (g_core g0) with None => false | Some c =>
  match vgo fi slice_sort insertion_sort vturns (vfine_start 2 c, []) with None => false | Some (st, t) =>
  vquietb st && (20 <? length t) end end end end.
Lemma vfine_gchecked : vfine_gcheck grad_fi = true.
Proof. vm_compute. reflexivity. Qed.
Lemma vfine_gcase_ok gf : vfine_gcheck gf = true -> exists fi c t st, gf = Some fi /\ polygon_gstart fi slice_sort insertion_sort 1 3 5 3 c /\ vfine_run fi slice_sort insertion_sort (vfine_start (3 - 1) c) t st /\ vfinished st /\ 20 < length t.
Proof.
  unfold vfine_gcheck. destruct gf as [fi|]; [|discriminate]. destruct (new_genetic _ _ _ _ _ _) as [[g0 r0]|] eqn:E0; [|discriminate]. rewrite !andb_true_iff. intros [[S0 N0] B].
  destruct (new_generation _ _ _ _ _) as [c|] eqn:E1; [|discriminate]. destruct (vgo _ _ _ _ _) as [[st t]|] eqn:E2; [|discriminate]. apply andb_true_iff in B as [B1 B2].
  exists fi, c, t, st. split; [reflexivity|]. split; [|split; [|split; [apply vquiet_ok, B1|apply Nat.ltb_lt, B2]]].
  - apply (pgs_step fi slice_sort insertion_sort 1 3 5 3 g0 nudge c); [|apply nudge_ok|exact E1]. eapply go_new; [| | |exact E0| |]; [reflexivity|apply (pts_ok pts3); vm_compute; reflexivity|apply ex_sched_ok|apply sortedb_ok, S0|apply all_pos_ok, N0].
  - apply (vgo_run fi slice_sort insertion_sort _ vturns (vfine_start 2 c) [] st t); [constructor|exact E2].
Qed.
Example C91_genetic_example : exists fi c t st, grad_fi = Some fi /\ polygon_gstart fi slice_sort insertion_sort 1 3 5 3 c /\ vfine_run fi slice_sort insertion_sort (vfine_start (3 - 1) c) t st /\ vfinished st /\ 20 < length t.
Proof. apply vfine_gcase_ok, vfine_gchecked. Qed.

(** The hypotheses of C91_simple_total together, for the picture of C69_case. *)
Example C91_usual : exists d fi c s c1 r1, to_data waves = Some d /\ usual_program (as_idata d) 2 fi slice_sort insertion_sort 1 2 5 3 /\ polygon_start fi slice_sort insertion_sort 1 2 5 3 c /\
  valid_schedule 2 s /\ do_acts (pev fi) s (c, []) = Some (c1, r1).
Proof.
  destruct C69_case as (d & fi & c0 & E & U & P). exists d, fi. assert (Q : exists groups s sw c r, point_groups 2 5 groups /\ valid_schedule 2 s /\ new_simple (pev fi) groups (new_pparallel 2 3) s sw = Some (c, r)).
  { clear - P. induction P as [groups s sw c r G V N S|]; [exists groups, s, sw, c, r; auto|assumption]. }
  destruct Q as (groups & s & sw & c & r & G & V & N). unfold new_simple in N. destruct (init_core groups (new_pparallel 2 3)) as [c1|] eqn:E1; [|discriminate]. unfold simple_calc in N. destruct (length (c_pop c1) =? 0); [discriminate|].
  destruct (do_acts (pev fi) s (c1, [])) as [[c2 r2]|] eqn:E2; [|discriminate]. exists c1, s, c2, r2. split; [exact E|]. split; [exact U|]. split; [exact (ps_new _ _ _ _ _ _ _ groups c1 G E1)|]. split; [exact V|exact E2].
Qed.
(** The arrays do change: function 0 reads array 1 while the result of function 1 is written into
    array 0. *)
Definition ex_prace (gf : option fimg) : option (option nat * nat * list nat * list nat) :=
  match gf with None => None | Some fi =>
  match new_simple (pev fi) (repeat pts3 2) (new_pparallel 2 3) ex_sched [] with None => None | Some (c0, r0) =>
  match new_generation (pev fi) nudge 1 2 c0 with None => None | Some c1 =>
  match do_acts (pev fi) [Calc 1; Prep; Recv 1] (c1, []) with None => None | Some (c2, r2) =>
  let used p := map (fun a => length (filter (fun x : option pentry => match x with None => false | _ => true end) a)) (pp_arrs p) in
  Some (preads_array (c_ev c2) 0, pp_cur (c_ev c2), used (c_ev c1), used (c_ev c2)) end end end end.
Example C91_arrays_case : ex_prace grad_fi = Some (Some 1, 0, [0; 2], [3; 2]).
Proof. vm_compute. reflexivity. Qed.
