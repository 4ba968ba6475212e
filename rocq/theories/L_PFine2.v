(** The executions of M_PFine: they end, and with all work done. *)
From Coq Require Import ZArith List Bool Arith Lia Permutation Wf_nat Relations Wellfounded.
From Verif Require Import GoNum M_Norm M_Slice M_Geom M_Image M_Raster M_Delaunay M_Algo S_Algo M_Fitness S_Fitness M_Voronoi M_Polygons M_Fine M_PFine L_PMap L_Slice L_Algo L_Algo2 L_Algo4 L_Fit L_Fit3 L_Race L_Sched L_Fine L_Fine2 L_PFine.
Import ListNotations.
Local Open Scope nat_scope.

Section Fine.
Context (im : fimg) (srt : sorter) (hsrt : point -> list point -> option (list point)).
Notation ev := (pparallel im srt hsrt).
Context (lim : nat) (c0 : core ppar).
Hypothesis H0 : vfit_start lim (c_ev c0).
Notation vsim := (vsim im srt hsrt lim c0).

Lemma sim_due q st cc : vsim q st cc -> forall a, In a q -> due lim a.
Proof.
  intros J [|i|i] H; cbn [due]; [exact I|apply (j_lt _ _ _ _ _ _ _ _ J), H|]. apply in_split in H as (l1 & l2 & E). apply (j_lt _ _ _ _ _ _ _ _ J). destruct (j_ord _ _ _ _ _ _ _ _ J) as [_ O].
  rewrite E. apply in_app_iff. left. apply (O l1 i l2 E).
Qed.
(** If the coarse executions return, no step of a fine one panics. *)
Lemma sim_safe q st cc b : (forall s, valid_schedule lim s -> do_acts ev s (c0, []) <> None) -> vsim q st cc -> admissible lim q b -> do_act ev (cc, vs_res st) b <> None.
Proof.
  intros Hs J [Nb Ab] E. assert (Ob : ordered (q ++ [b])).
  { apply ordered_snoc; [apply J|exact Nb|]. intros i ->. tauto. }
  assert (Db : forall a, In a (q ++ [b]) -> due lim a).
  { intros a H. apply in_app_iff in H as [H|[<-|[]]]; [apply (sim_due q st cc J), H|]. destruct b; cbn [due]; try exact I; tauto. }
  apply (Hs _ (complete lim (q ++ [b]) Ob Db)). rewrite <- app_assoc, do_acts_app, (j_run _ _ _ _ _ _ _ _ J). cbn [app do_acts]. rewrite E. reflexivity.
Qed.
Lemma fine_safe q st cc a : (forall s, valid_schedule lim s -> do_acts ev s (c0, []) <> None) -> vsim q st cc -> venabled st a -> vfine_step im srt hsrt st a <> None.
Proof.
  intros Hs J En E. destruct a as [i| |i|].
  - pose proof (work_step im srt hsrt lim c0 H0 q st cc i J En) as X. rewrite E in X. destruct X as (b & A & B). exact (sim_safe q st cc b Hs J A B).
  - discriminate.
  - pose proof (recv_step im srt hsrt lim c0 H0 q st cc i J En) as X. rewrite E in X. destruct X as (b & A & B). exact (sim_safe q st cc b Hs J A B).
  - pose proof (upd_step im srt hsrt lim c0 H0 q st cc J En) as X. rewrite E in X. destruct X as (b & A & B). exact (sim_safe q st cc b Hs J A B).
Qed.
(** When nothing is left to do, the coarse execution is complete and ends in the same state. *)
Lemma sim_final q st cc : vsim q st cc -> (forall a, ~ venabled st a) -> valid_schedule lim q /\ vs_core st = cc.
Proof.
  intros J F. assert (P : vs_prep st = true) by (destruct (vs_prep st) eqn:E; [reflexivity|exfalso; exact (F VPrep E)]).
  assert (M : vs_main st = None) by (destruct (vs_main st) eqn:E; [exfalso; apply (F VUpd); cbn [venabled]; congruence|reflexivity]).
  assert (D : forall i, i < lim -> In (Calc i) q).
  { intros i Hi. destruct (j_pos _ _ _ _ _ _ _ _ J i Hi) as (id & f & g & h & ph & _ & _ & _ & _ & E & W). destruct (in_dec act_dec (Calc i) q) as [H|H]; [exact H|exfalso]. apply (F (VWork i)). exists ph. split; [exact E|]. intros v ->. apply H, W. }
  assert (R : forall i, i < lim -> In (Recv i) q).
  { intros i Hi. destruct (done_pos im srt hsrt lim c0 q st cc i J (D i Hi)) as (id & f & g & v & _ & _ & _ & _ & _ & _ & _ & Rv & _). destruct (in_dec Nat.eq_dec i (vs_got st)) as [H|H].
    - apply (j_got _ _ _ _ _ _ _ _ J) in H as [H|(l & H)]; [exact H|congruence].
    - exfalso. apply (F (VRecv i)). cbn [venabled]. split; [exact P|]. split; [exact M|]. split; [congruence|exact H]. }
  split.
  - apply valid_of; [apply J| |apply J]. intros a. split; [apply (sim_due q st cc J)|]. destruct a; cbn [due]; [intros _; apply (j_prep _ _ _ _ _ _ _ _ J), P|apply D|apply R].
  - pose proof (j_main _ _ _ _ _ _ _ _ J) as Jm. rewrite M in Jm. destruct Jm as [Ja Jf]. rewrite (v_f _ _ _ _ _ _ _ _ J), (j_c _ _ _ _ _ _ _ _ J) at 1. rewrite Jf. f_equal.
    assert (Ef : pp_funs (c_ev (vs_core st)) = pp_funs (c_ev cc)).
    { apply nth_error_ext. intros id. destruct (pos_dec lim c0 id) as [(i & Hi & Ei)|N].
      - destruct (done_pos im srt hsrt lim c0 q st cc i J (D i Hi)) as (id' & f & g & v & E1 & _ & E3 & E4 & _). rewrite Ei in E1. injection E1 as <-. congruence.
      - destruct (j_out _ _ _ _ _ _ _ _ J id N). congruence. }
    pose proof (proj1 (j_order _ _ _ _ _ _ _ _ J)) as O1. pose proof (proj2 (j_order _ _ _ _ _ _ _ _ J)) as O2. pose proof (proj1 (j_cur _ _ _ _ _ _ _ _ J)) as Cu.
    destruct (c_ev (vs_core st)) as [fu od ar cu], (c_ev cc) as [fu' od' ar' cu']. cbn [pp_funs pp_order pp_arrs pp_cur] in *. congruence.
Qed.
End Fine.

(* ------------------------------------------------------------------ *)
(** * The executions end *)
Definition rank (ph : vphase) : nat * nat :=
  match ph with
  | VStart => (7, 0) | VSet k => (6, 5 - k) | VRemove l => (5, length l) | VInsert l => (4, length l) | VNil => (3, 0) | VLoop l _ => (2, length l) | VDone _ => (1, 0)
  end.
Lemma rank_step im srt hsrt p id f pts muts ph f' ph' : vfun_step im srt hsrt p id f pts muts ph = Some (f', ph') -> lt2 (rank ph') (rank ph).
Proof.
  unfold lt2. destruct ph as [|k|[|m l]|[|q l]| |[|t l] s|v]; cbn [vfun_step rank fst snd].
  - destruct (pf_tri f).
    + destruct (pf_base f) as [b|]; [destruct (b =? id); [discriminate|]|]; intros [= <- <-]; cbn; lia.
    + destruct (new_voronoi _ _); cbn [option_map]; [|discriminate]. intros [= <- <-]. cbn [rank fst snd]. lia.
  - destruct (pf_tri f); [|discriminate]. destruct (pf_base f); [|discriminate]. destruct (nth_error _ _) as [g|]; [|discriminate]. destruct (pf_tri g); [|discriminate]. destruct (vset_field _ _ _); cbn [option_map]; [|discriminate].
    intros [= <- <-]. destruct (Nat.ltb_spec k 5); cbn [rank fst snd]; lia.
  - intros [= <- <-]. cbn [rank fst snd]. lia.
  - destruct (pf_tri f); [|discriminate]. cbv zeta. destruct (iv_remove _ _ _ _); cbn [option_map]; [|discriminate]. intros [= <- <-]. cbn [rank fst snd length]. lia.
  - intros [= <- <-]. cbn [rank fst snd]. lia.
  - destruct (pf_tri f); [|discriminate]. destruct (iv_insert _ _ _); cbn [option_map]; [|discriminate]. intros [= <- <-]. cbn [rank fst snd length]. lia.
  - destruct (pf_tri f); [|discriminate]. destruct (pcache_view _ _) as [[v a]|]; [|discriminate]. intros [= <- <-]. cbn [rank fst snd]. lia.
  - intros [= <- <-]. cbn [rank fst snd]. lia.
  - destruct (vseen_now _ _ _); [|discriminate]. destruct (poly_step _ _ _ _); cbn [option_map]; [|discriminate]. intros [= <- <-]. cbn [rank fst snd length]. lia.
  - discriminate.
Qed.
(** The components: the workers, the collecting loop. *)
Definition main_rank (lim : nat) (st : vstate) : nat * nat :=
  ((if vs_prep st then 0 else 1) + missing lim (vs_got st), match vs_main st with None => 0 | Some (_, l) => S (length l) end).
Definition ranks (lim : nat) (st : vstate) : list (nat * nat) := main_rank lim st :: map rank (vs_work st).

Section End_.
Context (im : fimg) (srt : sorter) (hsrt : point -> list point -> option (list point)) (lim : nat) (c0 : core ppar).
Hypothesis H0 : vfit_start lim (c_ev c0).
Lemma step_down q st cc a st' : vsim im srt hsrt lim c0 q st cc -> venabled st a -> vfine_step im srt hsrt st a = Some st' -> down1 lt2 (ranks lim st') (ranks lim st).
Proof.
  intros J En E. unfold ranks. destruct a as [i| |i|]; cbn [vfine_step] in E.
  - destruct (nth_error (vs_work st) i) as [ph|] eqn:Ew; [|discriminate]. destruct (nth_error (c_pop _) i); [|discriminate]. destruct (nth_error (c_muts _) i); [|discriminate]. destruct (pat_pos _ i) as [[id f]|]; [|discriminate].
    destruct (vfun_step _ _ _ _ _ _ _ _ _) as [[f' ph']|] eqn:Ef; [|discriminate]. injection E as <-. cbn [vs_work main_rank vs_main vs_prep vs_got]. rewrite (L_Algo4.map_set_nth rank).
    apply (down_at lt2 (S i) (rank ph) (rank ph') (main_rank lim st :: map rank (vs_work st))); [cbn [nth_error]; rewrite nth_error_map, Ew; reflexivity|]. apply (rank_step _ _ _ _ _ _ _ _ _ _ _ Ef).
  - cbn [venabled] in En. injection E as <-. cbn [vs_work].
    apply (down_at lt2 0 (main_rank lim st) _ (main_rank lim st :: map rank (vs_work st))); [reflexivity|]. unfold lt2, main_rank. cbn [vs_prep vs_got vs_main fst]. rewrite En. left. lia.
  - destruct En as (P & M & Rn & Ng). destruct (result _ i) as [v|] eqn:Rv; [|discriminate]. destruct (pat_pos _ i) as [[id f]|]; [|discriminate]. destruct (put _ _ _); [|discriminate]. destruct (pcache_view _ _) as [[view al]|]; [|discriminate]. injection E as <-. cbn [vs_work].
    apply (down_at lt2 0 (main_rank lim st) _ (main_rank lim st :: map rank (vs_work st))); [reflexivity|]. unfold lt2, main_rank. cbn [vs_prep vs_got vs_main fst]. left.
    assert (Hi : i < lim) by (apply (j_lt _ _ _ _ _ _ _ _ J), (j_res _ _ _ _ _ _ _ _ J); congruence). pose proof (missing_lt lim (vs_got st) i Hi Ng). lia.
  - destruct (vs_main st) as [[i [|d l]]|] eqn:M; [| |discriminate].
    + destruct (pat_pos _ i) as [[id f]|]; [|discriminate]. injection E as <-. cbn [vs_work].
      apply (down_at lt2 0 (main_rank lim st) _ (main_rank lim st :: map rank (vs_work st))); [reflexivity|]. unfold lt2, main_rank. cbn [vs_prep vs_got vs_main fst snd]. rewrite M. cbn [length]. right. lia.
    + destruct d as [e|]; [|discriminate]. destruct (nth_error _ _) as [arr|]; [|discriminate]. destruct (zset _ _ _); cbn [option_map] in E; [|discriminate]. injection E as <-. cbn [vs_work].
      apply (down_at lt2 0 (main_rank lim st) _ (main_rank lim st :: map rank (vs_work st))); [reflexivity|]. unfold lt2, main_rank. cbn [vs_prep vs_got vs_main fst snd]. rewrite M. cbn [length]. right. lia.
Qed.
Lemma fine_ends st : (exists q cc, vsim im srt hsrt lim c0 q st cc) -> Acc (fun st' st => exists a, venabled st a /\ vfine_step im srt hsrt st a = Some st') st.
Proof.
  remember (ranks lim st) as x eqn:Ex. revert st Ex. induction x as [x IH] using (well_founded_induction (down1_wf lt2 lt2_wf)). intros st -> (q & cc & J). constructor. intros st' (a & En & Es).
  apply (IH _ (step_down q st cc a st' J En Es) st' eq_refl). destruct a as [i| |i|].
  - pose proof (work_step im srt hsrt lim c0 H0 q st cc i J En) as X. rewrite Es in X. destruct X as [X|(b & cc' & _ & X)]; eauto.
  - destruct (prep_step im srt hsrt lim c0 q st cc J En) as (s1 & E' & cc' & _ & X). rewrite Es in E'. injection E' as <-. eauto.
  - pose proof (recv_step im srt hsrt lim c0 H0 q st cc i J En) as X. rewrite Es in X. eauto.
  - pose proof (upd_step im srt hsrt lim c0 H0 q st cc J En) as X. rewrite Es in X. destruct X as [X|(b & cc' & _ & X)]; eauto.
Qed.
End End_.
