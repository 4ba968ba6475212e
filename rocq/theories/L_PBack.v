(** The converse of L_PFine: every execution with single events is one of the interleaved ones, in
    which the steps of an event follow each other. *)
From Coq Require Import ZArith List Bool Lia Arith Permutation.
From Verif Require Import GoNum M_Norm M_Slice M_Geom M_Raster M_Delaunay M_Algo S_Algo M_Fitness S_Fitness M_Voronoi M_Polygons M_PFine S_PFine M_PFineRun.
From Verif Require Import L_Algo L_Algo2 L_Fit L_PFine L_PFine2 L_PRace L_PFine3 L_FineRun L_PFineRun.
Import ListNotations.
Local Open Scope nat_scope.

Section Back.
Context (im : fimg) (srt : sorter) (hsrt : point -> list point -> option (list point)) (lim : nat) (c0 : core ppar) (cutoff : nat) (ben0 : list bmuts).
Hypothesis H0 : vfit_start lim (c_ev c0).
Hypothesis (Lp : length (c_pop c0) >= lim) (Lm : length (c_muts c0) >= lim).
Hypothesis (Hc : cutoff <> 0) (Lf : cutoff <= length (c_fits c0)) (Lb : length ben0 = cutoff).
Hypothesis NP : forall t st a, vfine_run im srt hsrt (vfine_start lim c0) t st -> venabled st a -> vfine_step im srt hsrt st a <> None.
Notation ev := (pparallel im srt hsrt). Notation Sim := (vsim im srt hsrt lim c0). Notation Gsim := (gvsim im srt hsrt lim c0 cutoff ben0).
Notation reached t x := (gvfine_run im srt hsrt cutoff (vfine_start lim c0, ben0) t x).

Lemma bnote i (c : core ppar) ben : cutoff <= length (c_fits c) -> length ben = cutoff -> i < length (c_muts c) -> vnote_one cutoff i c ben <> None.
Proof.
  intros Lf' Lb' Lm'. unfold vnote_one, set_beneficial, get_base. destruct (Nat.eqb_spec cutoff 0); [contradiction|]. pose proof (Nat.mod_upper_bound i cutoff Hc) as B. destruct (Nat.ltb_spec (i mod cutoff) (length (c_fits c))); [|lia]. destruct (flt _ _); [|discriminate].
  destruct (nth_error (c_muts c) i) as [ms|] eqn:E; [|apply nth_error_None in E; lia]. destruct (nth_error ben (i mod cutoff)) eqn:E2; [discriminate|apply nth_error_None in E2; lia].
Qed.
(** No step panics, with the noting. *)
Lemma gnp t x a : reached t x -> venabled (fst x) a -> gvfine_step im srt hsrt cutoff x a <> None.
Proof.
  intros R En. pose proof (grun_run im srt hsrt lim c0 cutoff ben0 t x R) as R1. pose proof (NP t (fst x) a R1 En) as N. destruct x as [st ben]. cbn [fst] in *. unfold gvfine_step. cbn [fst snd]. destruct (vfine_step im srt hsrt st a) as [st'|] eqn:Es; [clear N|contradiction]. destruct a; try discriminate. destruct (vs_main st) as [[i [|d k]]|] eqn:M; try discriminate.
  destruct (gsim_run im srt hsrt lim c0 H0 cutoff ben0 t (st, ben) Lp Lm R) as (q & cc & G). pose proof (upd_gsim im srt hsrt lim c0 H0 cutoff ben0 q st ben cc st' G En Es) as X. rewrite M in X. destruct X as (cc' & J' & Ec & Ef).
  pose proof (proj2 G) as G2. cbn [fst snd] in G2. destruct (gacts_core ev cutoff q _ [] _ _ G2) as [_ Lb2]. cbn [g_ben] in Lb2.
  pose proof (j_main _ _ _ _ _ _ _ _ (proj1 G)) as Jm. cbn [fst] in Jm. rewrite M in Jm. destruct Jm as (Li & _).
  assert (Lf' : length (c_fits cc') = length (c_fits c0)). { pose proof (j_run _ _ _ _ _ _ _ _ J') as Jr. exact (gacts_fits _ _ _ _ _ _ Jr). }
  assert (Lm' : length (c_muts cc') = length (c_muts c0)) by (rewrite (j_c _ _ _ _ _ _ _ _ J'); reflexivity).
  assert (N : vnote_one cutoff i (vs_core st') ben <> None). { rewrite <- (note_same cutoff i cc' (vs_core st') ben Ef); [apply bnote; lia|rewrite Ec; destruct cc'; reflexivity]. } destruct (vnote_one cutoff i (vs_core st') ben); [discriminate|destruct (N eq_refl)].
Qed.

(** The events q have happened and no Update is going on. *)
Definition at_event (q : list act) (x : vstate * list bmuts) : Prop := (exists t, reached t x) /\ vs_main (fst x) = None /\ exists cc, Gsim q x cc.
Lemma at_start : at_event [] (vfine_start lim c0, ben0).
Proof. split; [exists []; constructor|]. split; [reflexivity|]. exists c0. split; [apply sim_start; assumption|reflexivity]. Qed.
Lemma work_res st i st' : vfine_step im srt hsrt st (VWork i) = Some st' -> vs_res st' = vs_res st \/ exists v, vs_res st' = (i, v) :: vs_res st.
Proof.
  unfold vfine_step. destruct (nth_error (vs_work st) i); [|discriminate]. destruct (nth_error (c_pop _) i); [|discriminate]. destruct (nth_error (c_muts _) i); [|discriminate]. destruct (pat_pos _ i) as [[id f]|]; [|discriminate].
  destruct (vfun_step _ _ _ _ _ _ _ _) as [[f' ph]|]; [|discriminate]. intros [= <-]. cbn [vs_res]. destruct ph; eauto.
Qed.
(** Worker i runs to its end. *)
Lemma calc_to i q : i < lim -> ~ In (Calc i) q -> forall st, Acc (fun st' st => exists a, venabled st a /\ vfine_step im srt hsrt st a = Some st') st -> forall ben, at_event q (st, ben) -> exists x, at_event (q ++ [Calc i]) x.
Proof.
  intros Hi Ni st A. induction A as [st _ IH]. intros ben ((t & R) & M & cc & G). cbn [fst] in M. pose proof (proj1 G) as J. cbn [fst] in J.
  destruct (j_pos _ _ _ _ _ _ _ _ J i Hi) as (id & f & g & h & ph & _ & _ & _ & _ & E5 & W). assert (En : venabled st (VWork i)) by (exists ph; split; [exact E5|]; intros v ->; destruct W as (W & _); exact (Ni W)).
  pose proof (gnp t (st, ben) (VWork i) R En) as N. destruct (gvfine_step im srt hsrt cutoff (st, ben) (VWork i)) as [x|] eqn:Es; [clear N|contradiction]. pose proof (gvr_snoc im srt hsrt cutoff _ t (st, ben) (VWork i) x R En Es) as R'.
  unfold gvfine_step in Es. cbn [fst snd] in Es. destruct (vfine_step im srt hsrt st (VWork i)) as [st'|] eqn:Es'; [|discriminate]. injection Es as <-. pose proof (work_step im srt hsrt lim c0 H0 q st cc i J En) as X. rewrite Es' in X. destruct (work_same _ _ _ _ _ _ Es') as (M' & P' & Go).
  assert (Mn : vs_main st' = None) by congruence. destruct X as [X|(b & cc' & _ & X)].
  - apply (IH st' (ex_intro _ (VWork i) (conj En Es')) ben). split; [eauto|]. split; [exact Mn|]. exists cc. exact (gsim_stay _ _ _ _ _ _ _ _ _ _ _ _ G X).
  - assert (B : b = Calc i).
    { destruct b as [|j|j].
      - destruct (prep_main _ _ _ _ _ _ _ _ _ _ J X) as [A1 A2]. congruence.
      - pose proof (act_of _ _ _ _ _ _ _ _ _ _ _ J X) as A. unfold do_act in A. destruct (nth_error (c_pop cc) j); [|discriminate]. destruct (nth_error (c_muts cc) j); [|discriminate]. destruct (ev_calc _ _ _ _ _) as [[e v]|]; [|discriminate]. cbn in A. injection A as _ A.
        destruct (work_res _ _ _ Es') as [Er|(v' & Er)]; rewrite Er in A; [apply (f_equal (@length _)) in A; cbn in A; lia|]. congruence.
      - destruct (recv_main _ _ _ _ _ _ _ _ _ _ _ J X Go) as (_ & l & A). congruence. }
    subst b. exists (st', ben). split; [eauto|]. split; [exact Mn|]. exists cc'. apply (gsim_grow _ _ _ _ _ _ _ _ _ _ _ _ _ _ G X). discriminate.
Qed.
Lemma prep_to q : ~ In Prep q -> forall x, at_event q x -> exists x', at_event (q ++ [Prep]) x'.
Proof.
  intros Ni [st ben] ((t & R) & M & cc & G). cbn [fst] in M. pose proof (proj1 G) as J. cbn [fst] in J. assert (En : venabled st VPrep). { cbn [venabled]. destruct (vs_prep st) eqn:P; [|reflexivity]. destruct Ni. apply (j_prep _ _ _ _ _ _ _ _ J), P. }
  destruct (prep_step im srt hsrt lim c0 q st cc J En) as (st1 & E1 & cc' & _ & X). exists (st1, ben). split; [|split].
  - exists (t ++ [VPrep]). apply (gvr_snoc im srt hsrt cutoff _ t (st, ben) VPrep (st1, ben) R En). unfold gvfine_step. cbn [fst snd]. rewrite E1. reflexivity.
  - cbn [fst]. unfold vfine_step in E1. destruct (ppar_prepare _); [|discriminate]. injection E1 as <-. exact M.
  - exists cc'. apply (gsim_grow _ _ _ _ _ _ _ _ _ _ _ _ _ _ G X). discriminate.
Qed.
(** Update runs to its end. *)
Lemma upd_to i q l : forall st ben t cc, reached t (st, ben) -> vs_main st = Some (i, l) -> Gsim q (st, ben) cc -> exists x, at_event (q ++ [Recv i]) x.
Proof.
  induction l as [|d l IH]; intros st ben t cc R M G; assert (En : venabled st VUpd) by (cbn [venabled]; congruence); pose proof (gnp t (st, ben) VUpd R En) as N; (destruct (gvfine_step im srt hsrt cutoff (st, ben) VUpd) as [x|] eqn:Es; [clear N|contradiction]); pose proof (gvr_snoc im srt hsrt cutoff _ t (st, ben) VUpd x R En Es) as R';
    unfold gvfine_step in Es; cbn [fst snd] in Es; (destruct (vfine_step im srt hsrt st VUpd) as [st'|] eqn:Es'; [|discriminate]); rewrite M in Es; pose proof (upd_gsim im srt hsrt lim c0 H0 cutoff ben0 q st ben cc st' G En Es') as X; rewrite M in X; destruct (upd_same _ _ _ _ _ Es') as (P & Go & Re & i' & l' & M1 & M'); rewrite M in M1; injection M1 as <- <-.
  - destruct X as (cc' & X & Ec & Ef). destruct (vnote_one cutoff i (vs_core st') ben) as [ben'|] eqn:En'; [|discriminate]. injection Es as <-. exists (st', ben'). split; [eauto|]. split; [exact M'|]. exists cc'. split; [exact X|]. cbn [fst snd]. destruct G as [J G]. cbn [fst snd] in *.
    rewrite g_acts_app, G. cbn [g_acts]. rewrite (note_act im srt hsrt cutoff cc ben (vs_res st) i cc' (vs_res st') (act_of _ _ _ _ _ _ _ _ _ _ _ J X)).
    rewrite (note_same cutoff i cc' (vs_core st') ben Ef), En'; [reflexivity|]. rewrite Ec. destruct cc'. reflexivity.
  - injection Es as <-. exact (IH st' ben _ cc R' M' X).
Qed.
Lemma recv_to i q : In (Calc i) q -> In Prep q -> ~ In (Recv i) q -> forall x, at_event q x -> exists x', at_event (q ++ [Recv i]) x'.
Proof.
  intros Ci Pi Ni [st ben] ((t & R) & M & cc & G). cbn [fst] in M. pose proof (proj1 G) as J. cbn [fst] in J.
  assert (En : venabled st (VRecv i)).
  { cbn [venabled]. split; [apply (j_prep _ _ _ _ _ _ _ _ J), Pi|]. split; [exact M|]. split.
    - destruct (done_pos im srt hsrt lim c0 q st cc i J Ci) as (id & f & g & v & _ & _ & _ & _ & _ & W). destruct W as (_ & _ & W & _). congruence.
    - intros I. apply (j_got _ _ _ _ _ _ _ _ J) in I as [I|(l & I)]; [exact (Ni I)|congruence]. }
  pose proof (gnp t (st, ben) (VRecv i) R En) as N. destruct (gvfine_step im srt hsrt cutoff (st, ben) (VRecv i)) as [x|] eqn:Es; [clear N|contradiction]. pose proof (gvr_snoc im srt hsrt cutoff _ t (st, ben) (VRecv i) x R En Es) as R'.
  unfold gvfine_step in Es. cbn [fst snd] in Es. destruct (vfine_step im srt hsrt st (VRecv i)) as [st'|] eqn:Es'; [|discriminate]. injection Es as <-. pose proof (recv_step im srt hsrt lim c0 H0 q st cc i J En) as X. rewrite Es' in X.
  assert (M' : exists l, vs_main st' = Some (i, l)). { revert Es'. unfold vfine_step. destruct (result _ i); [|discriminate]. destruct (pat_pos _ i) as [[id1 f1]|]; [|discriminate]. destruct (put _ _ _); [|discriminate]. destruct (pcache_view _ _) as [[view al]|]; [|discriminate]. intros [= <-]. eexists. reflexivity. }
  destruct M' as (l & M'). exact (upd_to i q l st' ben _ cc R' M' (gsim_stay _ _ _ _ _ _ _ _ _ _ _ _ G X)).
Qed.
Lemma ordered_init s b : ordered (s ++ [b]) -> ordered s /\ ~ In b s /\ forall i, b = Recv i -> In (Calc i) s /\ In Prep s.
Proof.
  intros [N O]. split; [split|split].
  - apply NoDup_remove_1 in N. rewrite app_nil_r in N. exact N.
  - intros l1 i l2 ->. apply (O l1 i (l2 ++ [b])). rewrite <- app_assoc. reflexivity.
  - apply NoDup_remove_2 in N. rewrite app_nil_r in N. exact N.
  - intros i ->. exact (O s i [] eq_refl).
Qed.
Lemma schedule_to s : ordered s -> (forall i, In (Calc i) s -> i < lim) -> exists x, at_event s x.
Proof.
  induction s as [|b s IH] using rev_ind; intros O Hl; [eexists; exact at_start|]. destruct (ordered_init s b O) as (O' & Nb & Rb). destruct (IH O' ltac:(intros i I; apply Hl, in_or_app; left; exact I)) as (x & A). destruct b as [|i|i].
  - exact (prep_to s Nb x A).
  - destruct x as [st ben]. assert (Hi : i < lim) by (apply Hl, in_or_app; right; left; reflexivity). apply (calc_to i s Hi Nb st) with (ben := ben); [|exact A]. destruct A as (_ & _ & cc & G). apply (fine_ends im srt hsrt lim c0 H0 st). exists s, cc. exact (proj1 G).
  - destruct (Rb i eq_refl) as [Ci Pi]. exact (recv_to i s Ci Pi Nb x A).
Qed.
Lemma schedule_run s : valid_schedule lim s -> exists t st ben, reached t (st, ben) /\ vfinished st /\ g_acts ev cutoff s (MGen c0 ben0, []) = Some (MGen (vs_core st) ben, vs_res st).
Proof.
  intros V. destruct (valid_ordered lim s V) as [O Rc]. destruct V as [V V2]. assert (Ca : forall i, In (Calc i) s <-> i < lim).
  { intros i. specialize (V (Calc i)). cbn beta iota in V. rewrite (count_occ_In (fun x y : act => ltac:(decide equality; apply Nat.eq_dec))), V. destruct (Nat.ltb_spec i lim); lia. }
  assert (Pr : In Prep s) by (specialize (V Prep); cbn beta iota in V; rewrite (count_occ_In (fun x y : act => ltac:(decide equality; apply Nat.eq_dec))), V; lia).
  destruct (schedule_to s O (fun i I => proj1 (Ca i) I)) as ([st ben] & (t & R) & M & cc & G). cbn [fst] in M. pose proof (proj1 G) as J. cbn [fst] in J.
  assert (F : vfinished st).
  { intros a En. destruct a as [i| |i|].
    - destruct En as (ph & E & Nd). assert (Hi : i < lim) by (rewrite <- (j_len _ _ _ _ _ _ _ _ J); apply nth_error_Some; congruence). destruct (done_pos im srt hsrt lim c0 s st cc i J (proj2 (Ca i) Hi)) as (id & f & g & v & _ & _ & _ & _ & E' & _). rewrite E in E'. injection E' as ->. exact (Nd v eq_refl).
    - cbn [venabled] in En. apply (j_prep _ _ _ _ _ _ _ _ J) in Pr. congruence.
    - destruct En as (_ & _ & Re & Ng). apply Ng. apply (j_got _ _ _ _ _ _ _ _ J). left. apply Rc. apply (j_lt _ _ _ _ _ _ _ _ J), (j_res _ _ _ _ _ _ _ _ J), Re.
    - exact (En M). }
  exists t, st, ben. split; [exact R|]. split; [exact F|]. exact (proj2 (gsim_ended im srt hsrt lim c0 cutoff ben0 s st ben cc G F)).
Qed.
End Back.
