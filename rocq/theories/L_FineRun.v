(** The steps of interleaved executions of modifiedGenetic, and what the collecting loop
    notes, event by event. *)
From Coq Require Import ZArith List Bool Lia Arith Permutation.
From Verif Require Import GoNum M_Norm M_Slice M_Geom M_Image M_Raster S_Norm M_Delaunay S_Delaunay M_Algo S_Algo M_Fitness S_Fitness S_Run M_Fine S_Fine M_FineRun.
From Verif Require Import L_Slice L_Algo L_Algo2 L_Sched L_Fine L_Fine2.
Import ListNotations.
Local Open Scope nat_scope.

Section Any.
Context {E0 : Type} (ev : evaluator E0).
Lemma gacts_core cutoff s : forall g r g' r', g_acts ev cutoff s (g, r) = Some (g', r') -> do_acts ev s (g_core g, r) = Some (g_core g', r') /\ length (g_ben g') = length (g_ben g).
Proof.
  induction s as [|a s IH]; intros g r g' r'; cbn [g_acts do_acts]; [intros [= <- <-]; auto|]. unfold g_act at 1. destruct (do_act ev (g_core g, r) a) as [[c1 r1]|] eqn:E; [|discriminate]. destruct a as [|i|i].
  1,2: intros H; exact (IH (MGen c1 (g_ben g)) r1 g' r' H). destruct (get_base cutoff i) as [b|]; [|discriminate]. destruct (b <? _); [|discriminate]. destruct (flt _ _).
  - destruct (set_beneficial cutoff i (c_fits c1) (c_muts c1) (g_ben g)) as [ben|] eqn:B; [|discriminate]. intros H. destruct (IH (MGen c1 ben) r1 g' r' H) as [A L]. split; [exact A|]. rewrite L. revert B. cbn [g_ben]. unfold set_beneficial.
    destruct (get_base cutoff i) as [b'|]; [|discriminate]. destruct (nth_error (c_muts c1) i) as [ms|]; [|discriminate]. destruct (nth_error (g_ben g) b') as [bm|]; [intros [= <-]; apply L_Slice.set_nth_length|]. destruct ms; [intros [= <-]; reflexivity|discriminate].
  - intros H. exact (IH (MGen c1 (g_ben g)) r1 g' r' H).
Qed.
Lemma gact_muts c r a c' r' : do_act ev (c, r) a = Some (c', r') -> c_muts c' = c_muts c /\ length (c_fits c') = length (c_fits c).
Proof.
  destruct a as [|i|i]; cbn [do_act].
  - destruct (ev_prepare ev (c_ev c)); [|discriminate]. intros [= <- <-]. auto.
  - destruct (nth_error (c_pop c) i); [|discriminate]. destruct (nth_error (c_muts c) i); [|discriminate]. destruct (ev_calc ev _ _ _ _); [|discriminate]. intros [= <- <-]. auto.
  - destruct (result r i) as [f|]; [|discriminate]. destruct (put i f (c_fits c)) as [fs|] eqn:P; [|discriminate]. destruct (ev_update ev _ _); [|discriminate]. intros [= <- <-]. apply put_inv in P as [_ ->]. split; [reflexivity|]. apply L_Slice.set_nth_length.
Qed.
Lemma gacts_fits s : forall c r c' r', do_acts ev s (c, r) = Some (c', r') -> length (c_fits c') = length (c_fits c).
Proof.
  induction s as [|a s IH]; intros c r c' r'; cbn [do_acts]; [intros [= <- <-]; reflexivity|]. destruct (do_act ev (c, r) a) as [[c1 r1]|] eqn:E; [|discriminate]. intros H. rewrite (IH _ _ _ _ H). apply (gact_muts _ _ _ _ _ E).
Qed.
(** newGeneration keeps the number of fitnesses. *)
Lemma ncopy_fits i j (c c' : core E0) : copy_member i j c = Some c' -> c_fits c' = c_fits c.
Proof. unfold copy_member. destruct (nth_error (c_newpop c) i); [|discriminate]. destruct (nth_error (c_pop c) j); [|discriminate]. destruct (put _ _ _); [|discriminate]. destruct (buf_set _ _ _); [|discriminate]. intros [= <-]. reflexivity. Qed.
Lemma nkeep_fits n : forall i (c c' : core E0), keep_bases n i c = Some c' -> c_fits c' = c_fits c.
Proof. induction n as [|n IH]; intros i c c'; cbn [keep_bases]; [intros [= <-]; reflexivity|]. destruct (copy_member i i c) as [c1|] eqn:E; [|discriminate]. intros H. rewrite (IH _ _ _ H). exact (ncopy_fits _ _ _ _ E). Qed.
Lemma ninner_fits mu n : forall j i lim c c' i', inner_loop ev mu n j i lim c = Some (c', i') -> c_fits c' = c_fits c.
Proof.
  induction n as [|n IH]; intros j i lim c c' i'; cbn [inner_loop]; [intros [= <- <-]; reflexivity|]. destruct (i <? lim); [|intros [= <- <-]; reflexivity]. destruct (new_member ev mu i j c) as [c1|] eqn:E; [|discriminate]. intros H. rewrite (IH _ _ _ _ _ _ H). revert E. unfold new_member.
  destruct (copy_member i j c) as [c2|] eqn:E; [|discriminate]. rewrite <- (ncopy_fits _ _ _ _ E). destruct (ev_base ev _ _ _); [|discriminate]. destruct (nth_error (c_newpop c2) i); [|discriminate]. destruct (mu i _). intros [= <-]. reflexivity.
Qed.
Lemma nouter_fits mu cutoff n : forall i lim c c', outer_loop ev n mu cutoff i lim c = Some c' -> c_fits c' = c_fits c.
Proof.
  induction n as [|n IH]; intros i lim c c'; cbn [outer_loop]; destruct (i <? lim); try discriminate; try (intros [= <-]; reflexivity). destruct (inner_loop ev mu cutoff 0 i lim c) as [[c1 i1]|] eqn:E; [|discriminate]. intros H. rewrite (IH _ _ _ _ H). exact (ninner_fits _ _ _ _ _ _ _ _ E).
Qed.
Lemma generation_nfits mu cutoff lim c c' : new_generation ev mu cutoff lim c = Some c' -> c_fits c' = c_fits c.
Proof.
  unfold new_generation. destruct (keep_bases cutoff 0 c) as [c1|] eqn:K; [|discriminate]. destruct (outer_loop ev lim mu cutoff cutoff lim c1) as [c2|] eqn:O; [|discriminate]. intros [= <-]. cbn [c_fits]. rewrite (nouter_fits _ _ _ _ _ _ _ O). exact (nkeep_fits _ _ _ _ K).
Qed.
End Any.

Section Notes.
Context (im : fimg) (srt : point -> list point -> option (list point)) (lim : nat) (c0 : core par).
Hypothesis H0 : fit_start lim (c_ev c0).
Notation ev := (parallel im srt). Notation Sim := (sim im srt lim c0).

Lemma note_act cutoff c ben r i c' r' : do_act ev (c, r) (Recv i) = Some (c', r') ->
  g_act ev cutoff (MGen c ben, r) (Recv i) = option_map (fun b => (MGen c' b, r')) (note_one cutoff i c' ben).
Proof.
  intros E. unfold g_act, note_one. cbn [g_core g_ben]. rewrite E. destruct (get_base cutoff i) as [b|]; [|reflexivity]. destruct (b <? length (c_fits c')); [|reflexivity]. destruct (flt _ _); [|reflexivity]. destruct (set_beneficial _ _ _ _ _); reflexivity.
Qed.
Lemma other_act cutoff c ben r a c' r' : (forall i, a <> Recv i) -> do_act ev (c, r) a = Some (c', r') -> g_act ev cutoff (MGen c ben, r) a = Some (MGen c' ben, r').
Proof. intros N E. unfold g_act. cbn [g_core g_ben]. rewrite E. destruct a; [reflexivity|reflexivity|]. destruct (N i eq_refl). Qed.
Lemma g_acts_app cutoff s1 : forall s2 x, g_acts ev cutoff (s1 ++ s2) x = match g_acts ev cutoff s1 x with None => None | Some y => g_acts ev cutoff s2 y end.
Proof. induction s1 as [|a s IH]; intros s2 x; cbn [app g_acts]; [reflexivity|]. destruct (g_act ev cutoff x a); [apply IH|reflexivity]. Qed.
Lemma act_of q b st cc st' cc' : Sim q st cc -> Sim (q ++ [b]) st' cc' -> do_act ev (cc, fs_res st) b = Some (cc', fs_res st').
Proof.
  intros J J'. pose proof (j_run _ _ _ _ _ _ _ J') as R. rewrite do_acts_app, (j_run _ _ _ _ _ _ _ J) in R. cbn [do_acts] in R. destruct (do_act ev (cc, fs_res st) b) as [[c r]|]; [|discriminate]. exact R.
Qed.
Lemma fresh_act q b st cc : Sim (q ++ [b]) st cc -> ~ In b q.
Proof. intros J I. destruct (j_ord _ _ _ _ _ _ _ J) as [N _]. apply NoDup_remove_2 in N. apply N. rewrite app_nil_r. exact I. Qed.
(** A received message is that of the Update that has ended. *)
Lemma recv_main q i st cc st' cc' : Sim q st cc -> Sim (q ++ [Recv i]) st' cc' -> fs_got st' = fs_got st -> fs_main st' = None /\ exists l, fs_main st = Some (i, l).
Proof.
  intros J J' G. pose proof (fresh_act _ _ _ _ J') as N. assert (I : In i (fs_got st)) by (rewrite <- G; apply (j_got _ _ _ _ _ _ _ J'); left; apply in_or_app; right; left; reflexivity).
  apply (j_got _ _ _ _ _ _ _ J) in I as [I|(l & I)]; [destruct (N I)|]. split; [|eauto]. destruct (fs_main st') as [[j l']|] eqn:M; [|reflexivity]. exfalso. pose proof (j_main _ _ _ _ _ _ _ J') as X. rewrite M in X. destruct X as (_ & _ & X & _).
  assert (K : In j (fs_got st)) by (rewrite <- G; apply (j_got _ _ _ _ _ _ _ J'); right; eauto). apply (j_got _ _ _ _ _ _ _ J) in K as [K|(l2 & K)]; [apply X, in_or_app; left; exact K|].
  rewrite I in K. injection K as <- _. apply X, in_or_app. right. left. reflexivity.
Qed.
Lemma prep_main q st cc st' cc' : Sim q st cc -> Sim (q ++ [Prep]) st' cc' -> fs_prep st = false /\ fs_prep st' = true.
Proof.
  intros J J'. pose proof (fresh_act _ _ _ _ J') as N. split; [|apply (j_prep _ _ _ _ _ _ _ J'), in_or_app; right; left; reflexivity]. destruct (fs_prep st) eqn:P; [|reflexivity]. destruct N. apply (j_prep _ _ _ _ _ _ _ J), P.
Qed.
Lemma work_same st i st' : fine_step im srt st (FWork i) = Some st' -> fs_main st' = fs_main st /\ fs_prep st' = fs_prep st /\ fs_got st' = fs_got st.
Proof.
  unfold fine_step. destruct (nth_error (fs_work st) i); [|discriminate]. destruct (nth_error (c_pop _) i); [|discriminate]. destruct (nth_error (c_muts _) i); [|discriminate]. destruct (at_pos _ i) as [[id f]|]; [|discriminate].
  destruct (fun_step _ _ _ _ _ _ _ _) as [[f' ph]|]; [|discriminate]. intros [= <-]. auto.
Qed.
Lemma upd_same st st' : fine_step im srt st FUpd = Some st' -> fs_prep st' = fs_prep st /\ fs_got st' = fs_got st /\ fs_res st' = fs_res st /\
  exists i l, fs_main st = Some (i, l) /\ fs_main st' = match l with [] => None | _ :: l' => Some (i, l') end.
Proof.
  unfold fine_step. destruct (fs_main st) as [[i [|d l]]|]; [| |discriminate].
  - destruct (at_pos _ i) as [[id f]|]; [|discriminate]. intros [= <-]. cbn. eauto 10.
  - destruct d as [e|]; [|discriminate]. destruct (nth_error _ _) as [arr|]; [|discriminate]. destruct (zset _ _ _); [|discriminate]. intros [= <-]. cbn. eauto 10.
Qed.

(** The coarse execution notes the same. *)
Definition gsim (cutoff : nat) (ben0 : list bmuts) (q : list act) (x : fstate * list bmuts) (cc : core par) : Prop :=
  Sim q (fst x) cc /\ g_acts ev cutoff q (MGen c0 ben0, []) = Some (MGen cc (snd x), fs_res (fst x)).

Lemma gsim_grow cutoff ben0 q st ben cc b st' cc' : gsim cutoff ben0 q (st, ben) cc -> Sim (q ++ [b]) st' cc' -> (forall i, b <> Recv i) -> gsim cutoff ben0 (q ++ [b]) (st', ben) cc'.
Proof.
  intros [J G] J' N. split; [exact J'|]. cbn [fst snd] in *. rewrite g_acts_app, G. cbn [g_acts]. rewrite (other_act cutoff cc ben (fs_res st) b cc' (fs_res st') N (act_of _ _ _ _ _ _ J J')). reflexivity.
Qed.
Lemma gsim_stay cutoff ben0 q st ben cc st' : gsim cutoff ben0 q (st, ben) cc -> Sim q st' cc -> gsim cutoff ben0 q (st', ben) cc.
Proof. intros [J G] J'. split; [exact J'|]. cbn [fst snd] in *. rewrite G. pose proof (j_run _ _ _ _ _ _ _ J) as A. pose proof (j_run _ _ _ _ _ _ _ J') as B. rewrite A in B. injection B as ->. reflexivity. Qed.
Lemma work_gsim cutoff ben0 q st ben cc i st' : gsim cutoff ben0 q (st, ben) cc -> enabled st (FWork i) -> fine_step im srt st (FWork i) = Some st' -> exists q' cc', gsim cutoff ben0 q' (st', ben) cc'.
Proof.
  intros G En Es. pose proof (work_step im srt lim c0 H0 q st cc i (proj1 G) En) as X. rewrite Es in X. destruct (work_same _ _ _ Es) as (M & P & Go). destruct X as [X|(b & cc' & _ & X)]; [eauto using gsim_stay|].
  exists (q ++ [b]), cc'. apply (gsim_grow cutoff ben0 q st ben cc b st' cc' G X). intros j ->. destruct (recv_main _ _ _ _ _ _ (proj1 G) X Go) as (A & l & B). cbn [fst] in *. congruence.
Qed.
Lemma prep_gsim cutoff ben0 q st ben cc st' : gsim cutoff ben0 q (st, ben) cc -> enabled st FPrep -> fine_step im srt st FPrep = Some st' -> exists q' cc', gsim cutoff ben0 q' (st', ben) cc'.
Proof.
  intros G En Es. destruct (prep_step im srt lim c0 q st cc (proj1 G) En) as (st1 & E1 & cc' & _ & X). rewrite Es in E1. injection E1 as <-. exists (q ++ [Prep]), cc'. apply (gsim_grow cutoff ben0 q st ben cc Prep st' cc' G X). discriminate.
Qed.
Lemma recv_gsim cutoff ben0 q st ben cc i st' : gsim cutoff ben0 q (st, ben) cc -> enabled st (FRecv i) -> fine_step im srt st (FRecv i) = Some st' -> exists q' cc', gsim cutoff ben0 q' (st', ben) cc'.
Proof. intros G En Es. pose proof (recv_step im srt lim c0 H0 q st cc i (proj1 G) En) as X. rewrite Es in X. eauto using gsim_stay. Qed.
(** The end of an Update is the event Recv; before it nothing happens. *)
Lemma upd_gsim cutoff ben0 q st ben cc st' : gsim cutoff ben0 q (st, ben) cc -> enabled st FUpd -> fine_step im srt st FUpd = Some st' ->
  match fs_main st with
  | Some (i, []) => exists cc', Sim (q ++ [Recv i]) st' cc' /\ fs_core st' = with_ev cc' (c_ev (fs_core st')) /\ c_fits cc' = c_fits (fs_core st')
  | _ => gsim cutoff ben0 q (st', ben) cc
  end.
Proof.
  intros G En Es. pose proof (upd_step im srt lim c0 H0 q st cc (proj1 G) En) as X. rewrite Es in X. destruct (upd_same _ _ Es) as (P & Go & Re & i & l & M & M'). rewrite M. pose proof (j_main _ _ _ _ _ _ _ (proj1 G)) as Jm. cbn [fst] in Jm. rewrite M in Jm. destruct Jm as (_ & Ci & Nr & Pt & _).
  assert (Y : Sim q st' cc /\ l <> [] \/ exists cc', Sim (q ++ [Recv i]) st' cc' /\ l = []).
  { destruct X as [X|(b & cc' & _ & X)].
    - left. split; [exact X|]. intros ->. cbn in M'. apply Nr. assert (I : In i (fs_got st')) by (rewrite Go; apply (j_got _ _ _ _ _ _ _ (proj1 G)); right; eauto). apply (j_got _ _ _ _ _ _ _ X) in I as [I|(l & I)]; [exact I|congruence].
    - right. exists cc'. destruct b as [|j|j].
      + destruct (prep_main _ _ _ _ _ (proj1 G) X) as [A _]. cbn [fst] in A. congruence.
      + exfalso. pose proof (act_of _ _ _ _ _ _ (proj1 G) X) as A. cbn [fst] in A. rewrite Re in A. unfold do_act in A. destruct (nth_error (c_pop cc) j); [|discriminate]. destruct (nth_error (c_muts cc) j); [|discriminate]. destruct (ev_calc _ _ _ _ _) as [[e v]|]; [|discriminate].
        cbn in A. injection A as _ A. apply (f_equal (@length _)) in A. cbn in A. lia.
      + destruct (recv_main _ _ _ _ _ _ (proj1 G) X Go) as (A & l' & B). cbn [fst] in B. rewrite M in B. injection B as <- <-. split; [exact X|]. destruct l; [reflexivity|congruence]. }
  destruct Y as [[Y Nl]|(cc' & Y & ->)].
  - destruct l; [destruct (Nl eq_refl)|]. exact (gsim_stay cutoff ben0 q st ben cc st' G Y).
  - exists cc'. split; [exact Y|]. pose proof (j_main _ _ _ _ _ _ _ Y) as Jm. rewrite M' in Jm. destruct Jm as [_ Jf]. split; [|symmetry; exact Jf].
    rewrite (j_f _ _ _ _ _ _ _ Y) at 1. rewrite (j_c _ _ _ _ _ _ _ Y) at 1. rewrite Jf. reflexivity.
Qed.
Lemma note_same cutoff i (c c' : core par) ben : c_fits c = c_fits c' -> c_muts c = c_muts c' -> note_one cutoff i c ben = note_one cutoff i c' ben.
Proof. unfold note_one. intros -> ->. reflexivity. Qed.
Lemma gsim_step cutoff ben0 q x cc a x' : gsim cutoff ben0 q x cc -> enabled (fst x) a -> gfine_step im srt cutoff x a = Some x' -> exists q' cc', gsim cutoff ben0 q' x' cc'.
Proof.
  destruct x as [st ben]. cbn [fst]. intros G En. unfold gfine_step. cbn [fst snd]. destruct (fine_step im srt st a) as [st'|] eqn:Es; [|discriminate]. destruct a as [i| |i|].
  - intros [= <-]. eauto using work_gsim.
  - intros [= <-]. eauto using prep_gsim.
  - intros [= <-]. eauto using recv_gsim.
  - pose proof (upd_gsim cutoff ben0 q st ben cc st' G En Es) as X. destruct (fs_main st) as [[i [|d l]]|]; [|intros [= <-]; eauto|intros [= <-]; eauto].
    destruct X as (cc' & X & Ec & Ef). destruct (note_one cutoff i (fs_core st') ben) as [ben'|] eqn:En'; [|discriminate]. intros [= <-]. exists (q ++ [Recv i]), cc'. split; [exact X|]. cbn [fst snd]. destruct G as [J G]. cbn [fst snd] in *.
    rewrite g_acts_app, G. cbn [g_acts]. rewrite (note_act cutoff cc ben (fs_res st) i cc' (fs_res st') (act_of _ _ _ _ _ _ J X)).
    rewrite (note_same cutoff i cc' (fs_core st') ben Ef), En'; [reflexivity|]. rewrite Ec. destruct cc'. reflexivity.
Qed.
Lemma gsim_run cutoff ben0 t x : length (c_pop c0) >= lim -> length (c_muts c0) >= lim -> gfine_run im srt cutoff (fine_start lim c0, ben0) t x -> exists q cc, gsim cutoff ben0 q x cc.
Proof.
  intros Lp Lm R. remember (fine_start lim c0, ben0) as x0 eqn:E0. induction R as [x|x t x1 a x2 R IH En Es].
  - subst x. exists [], c0. split; [apply sim_start; assumption|reflexivity].
  - destruct (IH E0) as (q & cc & G). eapply gsim_step; eassumption.
Qed.
(** A run of this kind is a run of the workers. *)
Lemma grun_run cutoff ben0 t x : gfine_run im srt cutoff (fine_start lim c0, ben0) t x -> fine_run im srt (fine_start lim c0) t (fst x).
Proof.
  intros R. remember (fine_start lim c0, ben0) as x0 eqn:E0. induction R as [x|x t x1 a x2 R IH En Es]; [subst x; constructor|]. apply (fr_snoc im srt _ t (fst x1) a); [exact (IH E0)|exact En|].
  revert Es. unfold gfine_step. destruct (fine_step im srt (fst x1) a) as [st'|]; [|discriminate]. destruct a; try (intros [= <-]; reflexivity). destruct (fs_main (fst x1)) as [[i [|d l]]|]; try (intros [= <-]; reflexivity). destruct (note_one _ _ _ _); [|discriminate]. intros [= <-]. reflexivity.
Qed.
Lemma gsim_ended cutoff ben0 q st ben cc : gsim cutoff ben0 q (st, ben) cc -> finished st -> valid_schedule lim q /\ g_acts ev cutoff q (MGen c0 ben0, []) = Some (MGen (fs_core st) ben, fs_res st).
Proof. intros [J G] F. destruct (sim_final im srt lim c0 q st cc J F) as [V E]. cbn [fst snd] in *. rewrite E. auto. Qed.
End Notes.
