(** The steps of interleaved executions of modifiedGenetic over polygon functions, and what the collecting loop
    notes, event by event. *)
From Coq Require Import ZArith List Bool Lia Arith Permutation.
From Verif Require Import GoNum M_Norm M_Slice M_Geom M_Image M_Raster S_Norm M_Delaunay S_Delaunay M_Algo S_Algo M_Fitness S_Fitness S_Run M_Voronoi M_Polygons M_PFine S_PFine M_PFineRun.
From Verif Require Import L_Slice L_Algo L_Algo2 L_Sched L_Fine L_PFine L_PFine2.
Import ListNotations.
Local Open Scope nat_scope.


Section Notes.
Context (im : fimg) (srt : sorter) (hsrt : point -> list point -> option (list point)) (lim : nat) (c0 : core ppar).
Hypothesis H0 : vfit_start lim (c_ev c0).
Notation ev := (pparallel im srt hsrt). Notation Sim := (vsim im srt hsrt lim c0).

Lemma note_act cutoff c ben r i c' r' : do_act ev (c, r) (Recv i) = Some (c', r') ->
  g_act ev cutoff (MGen c ben, r) (Recv i) = option_map (fun b => (MGen c' b, r')) (vnote_one cutoff i c' ben).
Proof.
  intros E. unfold g_act, vnote_one. cbn [g_core g_ben]. rewrite E. destruct (get_base cutoff i) as [b|]; [|reflexivity]. destruct (b <? length (c_fits c')); [|reflexivity]. destruct (flt _ _); [|reflexivity]. destruct (set_beneficial _ _ _ _ _); reflexivity.
Qed.
Lemma other_act cutoff c ben r a c' r' : (forall i, a <> Recv i) -> do_act ev (c, r) a = Some (c', r') -> g_act ev cutoff (MGen c ben, r) a = Some (MGen c' ben, r').
Proof. intros N E. unfold g_act. cbn [g_core g_ben]. rewrite E. destruct a; [reflexivity|reflexivity|]. destruct (N i eq_refl). Qed.
Lemma g_acts_app cutoff s1 : forall s2 x, g_acts ev cutoff (s1 ++ s2) x = match g_acts ev cutoff s1 x with None => None | Some y => g_acts ev cutoff s2 y end.
Proof. induction s1 as [|a s IH]; intros s2 x; cbn [app g_acts]; [reflexivity|]. destruct (g_act ev cutoff x a); [apply IH|reflexivity]. Qed.
Lemma act_of q b st cc st' cc' : Sim q st cc -> Sim (q ++ [b]) st' cc' -> do_act ev (cc, vs_res st) b = Some (cc', vs_res st').
Proof.
  intros J J'. pose proof (j_run _ _ _ _ _ _ _ _ J') as R. rewrite do_acts_app, (j_run _ _ _ _ _ _ _ _ J) in R. cbn [do_acts] in R. destruct (do_act ev (cc, vs_res st) b) as [[c r]|]; [|discriminate]. exact R.
Qed.
Lemma fresh_act q b st cc : Sim (q ++ [b]) st cc -> ~ In b q.
Proof. intros J I. destruct (j_ord _ _ _ _ _ _ _ _ J) as [N _]. apply NoDup_remove_2 in N. apply N. rewrite app_nil_r. exact I. Qed.
(** A received message is that of the Update that has ended. *)
Lemma recv_main q i st cc st' cc' : Sim q st cc -> Sim (q ++ [Recv i]) st' cc' -> vs_got st' = vs_got st -> vs_main st' = None /\ exists l, vs_main st = Some (i, l).
Proof.
  intros J J' G. pose proof (fresh_act _ _ _ _ J') as N. assert (I : In i (vs_got st)) by (rewrite <- G; apply (j_got _ _ _ _ _ _ _ _ J'); left; apply in_or_app; right; left; reflexivity).
  apply (j_got _ _ _ _ _ _ _ _ J) in I as [I|(l & I)]; [destruct (N I)|]. split; [|eauto]. destruct (vs_main st') as [[j l']|] eqn:M; [|reflexivity]. exfalso. pose proof (j_main _ _ _ _ _ _ _ _ J') as X. rewrite M in X. destruct X as (_ & _ & X & _).
  assert (K : In j (vs_got st)) by (rewrite <- G; apply (j_got _ _ _ _ _ _ _ _ J'); right; eauto). apply (j_got _ _ _ _ _ _ _ _ J) in K as [K|(l2 & K)]; [apply X, in_or_app; left; exact K|].
  rewrite I in K. injection K as <- _. apply X, in_or_app. right. left. reflexivity.
Qed.
Lemma prep_main q st cc st' cc' : Sim q st cc -> Sim (q ++ [Prep]) st' cc' -> vs_prep st = false /\ vs_prep st' = true.
Proof.
  intros J J'. pose proof (fresh_act _ _ _ _ J') as N. split; [|apply (j_prep _ _ _ _ _ _ _ _ J'), in_or_app; right; left; reflexivity]. destruct (vs_prep st) eqn:P; [|reflexivity]. destruct N. apply (j_prep _ _ _ _ _ _ _ _ J), P.
Qed.
Lemma work_same st i st' : vfine_step im srt hsrt st (VWork i) = Some st' -> vs_main st' = vs_main st /\ vs_prep st' = vs_prep st /\ vs_got st' = vs_got st.
Proof.
  unfold vfine_step. destruct (nth_error (vs_work st) i); [|discriminate]. destruct (nth_error (c_pop _) i); [|discriminate]. destruct (nth_error (c_muts _) i); [|discriminate]. destruct (pat_pos _ i) as [[id f]|]; [|discriminate].
  destruct (vfun_step _ _ _ _ _ _ _ _) as [[f' ph]|]; [|discriminate]. intros [= <-]. auto.
Qed.
Lemma upd_same st st' : vfine_step im srt hsrt st VUpd = Some st' -> vs_prep st' = vs_prep st /\ vs_got st' = vs_got st /\ vs_res st' = vs_res st /\
  exists i l, vs_main st = Some (i, l) /\ vs_main st' = match l with [] => None | _ :: l' => Some (i, l') end.
Proof.
  unfold vfine_step. destruct (vs_main st) as [[i [|d l]]|]; [| |discriminate].
  - destruct (pat_pos _ i) as [[id f]|]; [|discriminate]. intros [= <-]. cbn. eauto 10.
  - destruct d as [e|]; [|discriminate]. destruct (nth_error _ _) as [arr|]; [|discriminate]. destruct (zset _ _ _); [|discriminate]. intros [= <-]. cbn. eauto 10.
Qed.

(** The coarse execution notes the same. *)
Definition gvsim (cutoff : nat) (ben0 : list bmuts) (q : list act) (x : vstate * list bmuts) (cc : core ppar) : Prop :=
  Sim q (fst x) cc /\ g_acts ev cutoff q (MGen c0 ben0, []) = Some (MGen cc (snd x), vs_res (fst x)).

Lemma gsim_grow cutoff ben0 q st ben cc b st' cc' : gvsim cutoff ben0 q (st, ben) cc -> Sim (q ++ [b]) st' cc' -> (forall i, b <> Recv i) -> gvsim cutoff ben0 (q ++ [b]) (st', ben) cc'.
Proof.
  intros [J G] J' N. split; [exact J'|]. cbn [fst snd] in *. rewrite g_acts_app, G. cbn [g_acts]. rewrite (other_act cutoff cc ben (vs_res st) b cc' (vs_res st') N (act_of _ _ _ _ _ _ J J')). reflexivity.
Qed.
Lemma gsim_stay cutoff ben0 q st ben cc st' : gvsim cutoff ben0 q (st, ben) cc -> Sim q st' cc -> gvsim cutoff ben0 q (st', ben) cc.
Proof. intros [J G] J'. split; [exact J'|]. cbn [fst snd] in *. rewrite G. pose proof (j_run _ _ _ _ _ _ _ _ J) as A. pose proof (j_run _ _ _ _ _ _ _ _ J') as B. rewrite A in B. injection B as ->. reflexivity. Qed.
Lemma work_gsim cutoff ben0 q st ben cc i st' : gvsim cutoff ben0 q (st, ben) cc -> venabled st (VWork i) -> vfine_step im srt hsrt st (VWork i) = Some st' -> exists q' cc', gvsim cutoff ben0 q' (st', ben) cc'.
Proof.
  intros G En Es. pose proof (work_step im srt hsrt lim c0 H0 q st cc i (proj1 G) En) as X. rewrite Es in X. destruct (work_same _ _ _ Es) as (M & P & Go). destruct X as [X|(b & cc' & _ & X)]; [eauto using gsim_stay|].
  exists (q ++ [b]), cc'. apply (gsim_grow cutoff ben0 q st ben cc b st' cc' G X). intros j ->. destruct (recv_main _ _ _ _ _ _ (proj1 G) X Go) as (A & l & B). cbn [fst] in *. congruence.
Qed.
Lemma prep_gsim cutoff ben0 q st ben cc st' : gvsim cutoff ben0 q (st, ben) cc -> venabled st VPrep -> vfine_step im srt hsrt st VPrep = Some st' -> exists q' cc', gvsim cutoff ben0 q' (st', ben) cc'.
Proof.
  intros G En Es. destruct (prep_step im srt hsrt lim c0 q st cc (proj1 G) En) as (st1 & E1 & cc' & _ & X). rewrite Es in E1. injection E1 as <-. exists (q ++ [Prep]), cc'. apply (gsim_grow cutoff ben0 q st ben cc Prep st' cc' G X). discriminate.
Qed.
Lemma recv_gsim cutoff ben0 q st ben cc i st' : gvsim cutoff ben0 q (st, ben) cc -> venabled st (VRecv i) -> vfine_step im srt hsrt st (VRecv i) = Some st' -> exists q' cc', gvsim cutoff ben0 q' (st', ben) cc'.
Proof. intros G En Es. pose proof (recv_step im srt hsrt lim c0 H0 q st cc i (proj1 G) En) as X. rewrite Es in X. eauto using gsim_stay. Qed.
(** The end of an Update is the event Recv; before it nothing happens. *)
Lemma upd_gsim cutoff ben0 q st ben cc st' : gvsim cutoff ben0 q (st, ben) cc -> venabled st VUpd -> vfine_step im srt hsrt st VUpd = Some st' ->
  match vs_main st with
  | Some (i, []) => exists cc', Sim (q ++ [Recv i]) st' cc' /\ vs_core st' = with_ev cc' (c_ev (vs_core st')) /\ c_fits cc' = c_fits (vs_core st')
  | _ => gvsim cutoff ben0 q (st', ben) cc
  end.
Proof.
  intros G En Es. pose proof (upd_step im srt hsrt lim c0 H0 q st cc (proj1 G) En) as X. rewrite Es in X. destruct (upd_same _ _ Es) as (P & Go & Re & i & l & M & M'). rewrite M. pose proof (j_main _ _ _ _ _ _ _ _ (proj1 G)) as Jm. cbn [fst] in Jm. rewrite M in Jm. destruct Jm as (_ & Ci & Nr & Pt & _).
  assert (Y : Sim q st' cc /\ l <> [] \/ exists cc', Sim (q ++ [Recv i]) st' cc' /\ l = []).
  { destruct X as [X|(b & cc' & _ & X)].
    - left. split; [exact X|]. intros ->. cbn in M'. apply Nr. assert (I : In i (vs_got st')) by (rewrite Go; apply (j_got _ _ _ _ _ _ _ _ (proj1 G)); right; eauto). apply (j_got _ _ _ _ _ _ _ _ X) in I as [I|(l & I)]; [exact I|congruence].
    - right. exists cc'. destruct b as [|j|j].
      + destruct (prep_main _ _ _ _ _ (proj1 G) X) as [A _]. cbn [fst] in A. congruence.
      + exfalso. pose proof (act_of _ _ _ _ _ _ (proj1 G) X) as A. cbn [fst] in A. rewrite Re in A. unfold do_act in A. destruct (nth_error (c_pop cc) j); [|discriminate]. destruct (nth_error (c_muts cc) j); [|discriminate]. destruct (ev_calc _ _ _ _ _) as [[e v]|]; [|discriminate].
        cbn in A. injection A as _ A. apply (f_equal (@length _)) in A. cbn in A. lia.
      + destruct (recv_main _ _ _ _ _ _ (proj1 G) X Go) as (A & l' & B). cbn [fst] in B. rewrite M in B. injection B as <- <-. split; [exact X|]. destruct l; [reflexivity|congruence]. }
  destruct Y as [[Y Nl]|(cc' & Y & ->)].
  - destruct l; [destruct (Nl eq_refl)|]. exact (gsim_stay cutoff ben0 q st ben cc st' G Y).
  - exists cc'. split; [exact Y|]. pose proof (j_main _ _ _ _ _ _ _ _ Y) as Jm. rewrite M' in Jm. destruct Jm as [_ Jf]. split; [|symmetry; exact Jf].
    rewrite (v_f _ _ _ _ _ _ _ _ Y) at 1. rewrite (j_c _ _ _ _ _ _ _ _ Y) at 1. rewrite Jf. reflexivity.
Qed.
Lemma note_same cutoff i (c c' : core ppar) ben : c_fits c = c_fits c' -> c_muts c = c_muts c' -> vnote_one cutoff i c ben = vnote_one cutoff i c' ben.
Proof. unfold vnote_one. intros -> ->. reflexivity. Qed.
Lemma gsim_step cutoff ben0 q x cc a x' : gvsim cutoff ben0 q x cc -> venabled (fst x) a -> gvfine_step im srt hsrt cutoff x a = Some x' -> exists q' cc', gvsim cutoff ben0 q' x' cc'.
Proof.
  destruct x as [st ben]. cbn [fst]. intros G En. unfold gvfine_step. cbn [fst snd]. destruct (vfine_step im srt hsrt st a) as [st'|] eqn:Es; [|discriminate]. destruct a as [i| |i|].
  - intros [= <-]. eauto using work_gsim.
  - intros [= <-]. eauto using prep_gsim.
  - intros [= <-]. eauto using recv_gsim.
  - pose proof (upd_gsim cutoff ben0 q st ben cc st' G En Es) as X. destruct (vs_main st) as [[i [|d l]]|]; [|intros [= <-]; eauto|intros [= <-]; eauto].
    destruct X as (cc' & X & Ec & Ef). destruct (vnote_one cutoff i (vs_core st') ben) as [ben'|] eqn:En'; [|discriminate]. intros [= <-]. exists (q ++ [Recv i]), cc'. split; [exact X|]. cbn [fst snd]. destruct G as [J G]. cbn [fst snd] in *.
    rewrite g_acts_app, G. cbn [g_acts]. rewrite (note_act cutoff cc ben (vs_res st) i cc' (vs_res st') (act_of _ _ _ _ _ _ J X)).
    rewrite (note_same cutoff i cc' (vs_core st') ben Ef), En'; [reflexivity|]. rewrite Ec. destruct cc'. reflexivity.
Qed.
Lemma gsim_run cutoff ben0 t x : length (c_pop c0) >= lim -> length (c_muts c0) >= lim -> gvfine_run im srt hsrt cutoff (vfine_start lim c0, ben0) t x -> exists q cc, gvsim cutoff ben0 q x cc.
Proof.
  intros Lp Lm R. remember (vfine_start lim c0, ben0) as x0 eqn:E0. induction R as [x|x t x1 a x2 R IH En Es].
  - subst x. exists [], c0. split; [apply sim_start; assumption|reflexivity].
  - destruct (IH E0) as (q & cc & G). eapply gsim_step; eassumption.
Qed.
(** A run of this kind is a run of the workers. *)
Lemma grun_run cutoff ben0 t x : gvfine_run im srt hsrt cutoff (vfine_start lim c0, ben0) t x -> vfine_run im srt hsrt (vfine_start lim c0) t (fst x).
Proof.
  intros R. remember (vfine_start lim c0, ben0) as x0 eqn:E0. induction R as [x|x t x1 a x2 R IH En Es]; [subst x; constructor|]. apply (vr_snoc im srt hsrt _ t (fst x1) a); [exact (IH E0)|exact En|].
  revert Es. unfold gvfine_step. destruct (vfine_step im srt hsrt (fst x1) a) as [st'|]; [|discriminate]. destruct a; try (intros [= <-]; reflexivity). destruct (vs_main (fst x1)) as [[i [|d l]]|]; try (intros [= <-]; reflexivity). destruct (vnote_one _ _ _ _); [|discriminate]. intros [= <-]. reflexivity.
Qed.
Lemma gsim_ended cutoff ben0 q st ben cc : gvsim cutoff ben0 q (st, ben) cc -> vfinished st -> valid_schedule lim q /\ g_acts ev cutoff q (MGen c0 ben0, []) = Some (MGen (vs_core st) ben, vs_res st).
Proof. intros [J G] F. destruct (sim_final im srt hsrt lim c0 q st cc J F) as [V E]. cbn [fst snd] in *. rewrite E. auto. Qed.
End Notes.
