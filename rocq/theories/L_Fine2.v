(** The executions of M_Fine: they end, and with all work done. *)
From Coq Require Import ZArith List Bool Arith Lia Permutation Wf_nat Relations Wellfounded.
From Verif Require Import GoNum M_Norm M_Slice M_Geom M_Image M_Raster M_Delaunay M_Algo S_Algo M_Fitness S_Fitness M_Fine L_PMap L_Slice L_Algo L_Algo2 L_Algo4 L_Fit L_Fit3 L_Race L_Sched L_Fine.
Import ListNotations.
Local Open Scope nat_scope.

(* ------------------------------------------------------------------ *)
(** * Schedules *)
Lemma act_dec (x y : act) : {x = y} + {x <> y}. Proof. decide equality; apply Nat.eq_dec. Defined.
Definition due (n : nat) (a : act) : Prop := match a with Prep => True | Calc i | Recv i => i < n end.
Lemma valid_of n s : NoDup s -> (forall a, In a s <-> due n a) -> (forall l1 i l2, s = l1 ++ Recv i :: l2 -> In (Calc i) l1 /\ In Prep l1) -> valid_schedule n s.
Proof.
  intros N I O. split; [|exact O]. intros a. specialize (I a). destruct (in_dec act_dec a s) as [H|H].
  - match goal with |- count_occ ?d s a = _ => pose proof (proj1 (NoDup_count_occ' d s) N a H) as E; rewrite E end. apply I in H. destruct a; cbn [due] in H; try reflexivity; apply Nat.ltb_lt in H; rewrite H; reflexivity.
  - match goal with |- count_occ ?d s a = _ => pose proof (proj1 (count_occ_not_In d s a) H) as E; rewrite E end. destruct a; cbn [due] in I; [exfalso; apply H, I; exact Logic.I| |];
      (destruct (Nat.ltb_spec i n) as [L|L]; [exfalso; apply H, I, L|reflexivity]).
Qed.
Definition todo (n : nat) (q : list act) : list act := filter (fun a => if in_dec act_dec a q then false else true) (Prep :: map Calc (seq 0 n)) ++ filter (fun a => if in_dec act_dec a q then false else true) (map Recv (seq 0 n)).
Lemma NoDup_app_intro {A} (l m : list A) : NoDup l -> NoDup m -> (forall x, In x l -> ~ In x m) -> NoDup (l ++ m).
Proof.
  induction l as [|a l IH]; intros N M D; [exact M|]. inversion N; subst. cbn [app]. constructor.
  - rewrite in_app_iff. intros [H|H]; [contradiction|apply (D a); [left; reflexivity|exact H]].
  - apply IH; [assumption|exact M|intros x Hx; apply D; right; exact Hx].
Qed.
(** A part of a schedule can be completed. *)
Lemma complete n q : ordered q -> (forall a, In a q -> due n a) -> valid_schedule n (q ++ todo n q).
Proof.
  intros [N O] D. set (p := fun a => if in_dec act_dec a q then false else true).
  assert (Pn : forall a, p a = true <-> ~ In a q) by (intros a; unfold p; destruct (in_dec act_dec a q); split; intros; congruence).
  assert (It : forall a, In a (todo n q) <-> due n a /\ ~ In a q).
  { intros a. unfold todo. fold p. rewrite in_app_iff, !filter_In, Pn. cbn [In]. rewrite !in_map_iff. split.
    - intros [[[<-|(i & <- & H)] B]|[(i & <- & H) B]]; try apply in_seq in H; cbn [due]; split; try exact I; try lia; exact B.
    - intros [H B]. destruct a as [|i|i]; cbn [due] in H; [left; auto|left; split; [right; exists i; split; [reflexivity|apply in_seq; lia]|exact B]|right; split; [exists i; split; [reflexivity|apply in_seq; lia]|exact B]]. }
  assert (Nt : NoDup (todo n q)).
  { unfold todo. apply NoDup_app_intro.
    - apply NoDup_filter. constructor; [intros H; apply in_map_iff in H as (i & H & _); discriminate|]. apply FinFun.Injective_map_NoDup; [intros x y [= ->]; reflexivity|apply seq_NoDup].
    - apply NoDup_filter. apply FinFun.Injective_map_NoDup; [intros x y [= ->]; reflexivity|apply seq_NoDup].
    - intros x Hx Hy. apply filter_In in Hx as [Hx _]. apply filter_In in Hy as [Hy _]. apply in_map_iff in Hy as (i & <- & _). destruct Hx as [Hx|Hx]; [discriminate|]. apply in_map_iff in Hx as (j & Hx & _). discriminate. }
  apply valid_of.
  - apply NoDup_app_intro; [exact N|exact Nt|]. intros x Hx Hy. apply It in Hy. tauto.
  - intros a. rewrite in_app_iff, It. split; [intros [H|[H _]]; auto|]. intros H. destruct (in_dec act_dec a q); auto.
  - intros l1 i l2 E. destruct (in_dec act_dec (Recv i) q) as [H|H].
    + apply in_split in H as (m1 & m2 & Eq). assert (m1 = l1).
      { subst q. rewrite <- app_assoc in E. cbn [app] in E. assert (Nf : NoDup (m1 ++ Recv i :: m2 ++ todo n (m1 ++ Recv i :: m2))).
        { replace (m1 ++ Recv i :: m2 ++ todo n (m1 ++ Recv i :: m2)) with ((m1 ++ Recv i :: m2) ++ todo n (m1 ++ Recv i :: m2)) by (rewrite <- app_assoc; reflexivity). apply NoDup_app_intro; [exact N|exact Nt|]. intros x Hx Hy. apply It in Hy. tauto. }
        revert E Nf. generalize (m2 ++ todo n (m1 ++ Recv i :: m2)). intros k. clear. revert l1. induction m1 as [|x m1 IH]; intros [|y l1] E Nf; cbn [app] in *.
        - reflexivity.
        - injection E as <- E. exfalso. inversion Nf as [|? ? Ni _]; subst. apply Ni, in_app_iff. right. left. reflexivity.
        - injection E as -> E. exfalso. inversion Nf as [|? ? Ni _]; subst. apply Ni, in_app_iff. right. left. reflexivity.
        - injection E as -> E. inversion Nf; subst. f_equal. apply (IH l1 E). assumption. }
      subst l1. apply (O m1 i m2 Eq).
    + set (A := filter p (Prep :: map Calc (seq 0 n))). set (B := filter p (map Recv (seq 0 n))). change (todo n q) with (A ++ B) in E.
      assert (L : forall a, a = Calc i \/ a = Prep -> In a l1).
      { intros a Ha. rewrite app_assoc in E. assert (Np : ~ In (Recv i) (q ++ A)).
        { rewrite in_app_iff. intros [K|K]; [contradiction|]. apply filter_In in K as [[K|K] _]; [discriminate|]. apply in_map_iff in K as (j & K & _). discriminate. }
        assert (Ia : In a (q ++ A)).
        { assert (Hr : In (Recv i) (A ++ B)) by (assert (K : In (Recv i) ((q ++ A) ++ B)) by (rewrite E; apply in_app_iff; right; left; reflexivity); apply in_app_iff in K as [K|K]; [contradiction|apply in_app_iff; right; exact K]).
          change (A ++ B) with (todo n q) in Hr. apply It in Hr as [Hr _]. cbn [due] in Hr. apply in_app_iff. destruct (in_dec act_dec a q) as [K|K]; [auto|right]. apply filter_In. split; [|apply Pn, K].
          destruct Ha as [->| ->]; [right; apply in_map_iff; exists i; split; [reflexivity|apply in_seq; lia]|left; reflexivity]. }
        clear -E Np Ia. revert E Np Ia. generalize (q ++ A). intros m. revert l1. induction m as [|x m IH]; intros l1 E Np Ia; [destruct Ia|]. destruct l1 as [|y l1]; cbn [app] in E.
        - injection E as -> E. exfalso. apply Np. left. reflexivity.
        - injection E as -> E. destruct Ia as [->|Ia]; [left; reflexivity|right]. apply (IH l1 E); [intros K; apply Np; right; exact K|exact Ia]. }
      split; apply L; auto.
Qed.

Section Fine.
Context (im : fimg) (srt : point -> list point -> option (list point)).
Notation ev := (parallel im srt).
Context (lim : nat) (c0 : core par).
Hypothesis H0 : fit_start lim (c_ev c0).
Notation sim := (sim im srt lim c0).

Lemma sim_due q st cc : sim q st cc -> forall a, In a q -> due lim a.
Proof.
  intros J [|i|i] H; cbn [due]; [exact I|apply (j_lt _ _ _ _ _ _ _ J), H|]. apply in_split in H as (l1 & l2 & E). apply (j_lt _ _ _ _ _ _ _ J). destruct (j_ord _ _ _ _ _ _ _ J) as [_ O].
  rewrite E. apply in_app_iff. left. apply (O l1 i l2 E).
Qed.
(** If the coarse executions return, no step of a fine one panics. *)
Lemma sim_safe q st cc b : (forall s, valid_schedule lim s -> do_acts ev s (c0, []) <> None) -> sim q st cc -> admissible lim q b -> do_act ev (cc, fs_res st) b <> None.
Proof.
  intros Hs J [Nb Ab] E. assert (Ob : ordered (q ++ [b])).
  { apply ordered_snoc; [apply J|exact Nb|]. intros i ->. tauto. }
  assert (Db : forall a, In a (q ++ [b]) -> due lim a).
  { intros a H. apply in_app_iff in H as [H|[<-|[]]]; [apply (sim_due q st cc J), H|]. destruct b; cbn [due]; try exact I; tauto. }
  apply (Hs _ (complete lim (q ++ [b]) Ob Db)). rewrite <- app_assoc, do_acts_app, (j_run _ _ _ _ _ _ _ J). cbn [app do_acts]. rewrite E. reflexivity.
Qed.
Lemma fine_safe q st cc a : (forall s, valid_schedule lim s -> do_acts ev s (c0, []) <> None) -> sim q st cc -> enabled st a -> fine_step im srt st a <> None.
Proof.
  intros Hs J En E. destruct a as [i| |i|].
  - pose proof (work_step im srt lim c0 H0 q st cc i J En) as X. rewrite E in X. destruct X as (b & A & B). exact (sim_safe q st cc b Hs J A B).
  - discriminate.
  - pose proof (recv_step im srt lim c0 H0 q st cc i J En) as X. rewrite E in X. destruct X as (b & A & B). exact (sim_safe q st cc b Hs J A B).
  - pose proof (upd_step im srt lim c0 H0 q st cc J En) as X. rewrite E in X. destruct X as (b & A & B). exact (sim_safe q st cc b Hs J A B).
Qed.
(** When nothing is left to do, the coarse execution is complete and ends in the same state. *)
Lemma sim_final q st cc : sim q st cc -> (forall a, ~ enabled st a) -> valid_schedule lim q /\ fs_core st = cc.
Proof.
  intros J F. assert (P : fs_prep st = true) by (destruct (fs_prep st) eqn:E; [reflexivity|exfalso; exact (F FPrep E)]).
  assert (M : fs_main st = None) by (destruct (fs_main st) eqn:E; [exfalso; apply (F FUpd); cbn [enabled]; congruence|reflexivity]).
  assert (D : forall i, i < lim -> In (Calc i) q).
  { intros i Hi. destruct (j_pos _ _ _ _ _ _ _ J i Hi) as (id & f & g & h & ph & _ & _ & _ & _ & E & W). destruct (in_dec act_dec (Calc i) q) as [H|H]; [exact H|exfalso]. apply (F (FWork i)). exists ph. split; [exact E|]. intros v ->. apply H, W. }
  assert (R : forall i, i < lim -> In (Recv i) q).
  { intros i Hi. destruct (done_pos im srt lim c0 q st cc i J (D i Hi)) as (id & f & g & v & _ & _ & _ & _ & _ & _ & _ & Rv & _). destruct (in_dec Nat.eq_dec i (fs_got st)) as [H|H].
    - apply (j_got _ _ _ _ _ _ _ J) in H as [H|(l & H)]; [exact H|congruence].
    - exfalso. apply (F (FRecv i)). cbn [enabled]. split; [exact P|]. split; [exact M|]. split; [congruence|exact H]. }
  split.
  - apply valid_of; [apply J| |apply J]. intros a. split; [apply (sim_due q st cc J)|]. destruct a; cbn [due]; [intros _; apply (j_prep _ _ _ _ _ _ _ J), P|apply D|apply R].
  - pose proof (j_main _ _ _ _ _ _ _ J) as Jm. rewrite M in Jm. destruct Jm as [Ja Jf]. rewrite (j_f _ _ _ _ _ _ _ J), (j_c _ _ _ _ _ _ _ J) at 1. rewrite Jf. f_equal.
    assert (Ef : p_funs (c_ev (fs_core st)) = p_funs (c_ev cc)).
    { apply nth_error_ext. intros id. destruct (pos_dec lim c0 id) as [(i & Hi & Ei)|N].
      - destruct (done_pos im srt lim c0 q st cc i J (D i Hi)) as (id' & f & g & v & E1 & _ & E3 & E4 & _). rewrite Ei in E1. injection E1 as <-. congruence.
      - destruct (j_out _ _ _ _ _ _ _ J id N). congruence. }
    pose proof (proj1 (j_order _ _ _ _ _ _ _ J)) as O1. pose proof (proj2 (j_order _ _ _ _ _ _ _ J)) as O2. pose proof (proj1 (j_cur _ _ _ _ _ _ _ J)) as Cu.
    destruct (c_ev (fs_core st)) as [fu od ar cu], (c_ev cc) as [fu' od' ar' cu']. cbn [p_funs p_order p_arrs p_cur] in *. congruence.
Qed.
End Fine.

(* ------------------------------------------------------------------ *)
(** * The executions end *)
Definition lt2 (x y : nat * nat) : Prop := fst x < fst y \/ fst x = fst y /\ snd x < snd y.
Lemma lt2_wf : well_founded lt2.
Proof.
  assert (H : forall a b, Acc lt2 (a, b)).
  { induction a as [a IHa] using lt_wf_ind. induction b as [b IHb] using lt_wf_ind. constructor. intros [a' b'] [L|[E L]]; cbn [fst snd] in *; [apply IHa, L|subst a'; apply IHb, L]. }
  intros [a b]. apply H.
Qed.
Definition rank (ph : phase) : nat * nat :=
  match ph with
  | FStart => (7, 0) | FSet k => (6, 4 - k) | FRemove l => (5, length l) | FInsert l => (4, length l) | FNil => (3, 0) | FLoop l _ => (2, length l) | FDone _ => (1, 0)
  end.
Lemma rank_step im srt p id f pts muts ph f' ph' : fun_step im srt p id f pts muts ph = Some (f', ph') -> lt2 (rank ph') (rank ph).
Proof.
  unfold lt2. destruct ph as [|k|[|m l]|[|q l]| |[|t l] s|v]; cbn [fun_step rank fst snd].
  - destruct (tf_tri f).
    + destruct (tf_base f) as [b|]; [destruct (b =? id); [discriminate|]|]; intros [= <- <-]; cbn; lia.
    + destruct (new_delaunay _ _); cbn [option_map]; [|discriminate]. intros [= <- <-]. cbn [rank fst snd]. lia.
  - destruct (tf_tri f); [|discriminate]. destruct (tf_base f); [|discriminate]. destruct (nth_error _ _) as [g|]; [|discriminate]. destruct (tf_tri g); [|discriminate]. destruct (set_field _ _ _); cbn [option_map]; [|discriminate].
    intros [= <- <-]. destruct (Nat.ltb_spec k 4); cbn [rank fst snd]; lia.
  - intros [= <- <-]. cbn [rank fst snd]. lia.
  - destruct (tf_tri f); [|discriminate]. cbv zeta. destruct (remove _ _ _); cbn [option_map]; [|discriminate]. intros [= <- <-]. cbn [rank fst snd length]. lia.
  - intros [= <- <-]. cbn [rank fst snd]. lia.
  - destruct (tf_tri f); [|discriminate]. destruct (insert _ _); cbn [option_map]; [|discriminate]. intros [= <- <-]. cbn [rank fst snd length]. lia.
  - destruct (tf_tri f); [|discriminate]. destruct (cache_view _ _) as [[v a]|]; [|discriminate]. intros [= <- <-]. cbn [rank fst snd]. lia.
  - intros [= <- <-]. cbn [rank fst snd]. lia.
  - destruct (seen_now _ _ _); [|discriminate]. destruct (tri_step _ _ _ _); cbn [option_map]; [|discriminate]. intros [= <- <-]. cbn [rank fst snd length]. lia.
  - discriminate.
Qed.
(** One component goes down. *)
Section Product.
Context {A : Type} (R : A -> A -> Prop).
Inductive down1 : list A -> list A -> Prop := down_at i x y l : nth_error l i = Some x -> R y x -> down1 (set_nth i y l) l.
Lemma down1_wf : well_founded R -> well_founded down1.
Proof.
  intros W l. induction l as [|x l IH].
  - constructor. intros y H. inversion H as [i x' y' l' E]. destruct i; discriminate.
  - revert l IH. induction (W x) as [x _ IHx]. intros l Al. revert Al. induction 1 as [l Al IHl]. constructor. intros z H. inversion H as [i x' y l' E Ry]; subst. destruct i as [|i]; cbn [nth_error set_nth] in *.
    + injection E as ->. apply IHx; [exact Ry|]. constructor. exact Al.
    + apply IHl. econstructor; eassumption.
Qed.
End Product.
Definition missing (lim : nat) (got : list nat) : nat := length (filter (fun i => if in_dec Nat.eq_dec i got then false else true) (seq 0 lim)).
Lemma filter_less {A} (p p' : A -> bool) l : (forall x, p' x = true -> p x = true) -> length (filter p' l) <= length (filter p l).
Proof. intros H. induction l as [|x l IH]; [apply le_n|]. cbn [filter]. specialize (H x). destruct (p' x); [rewrite (H eq_refl); cbn [length]; lia|destruct (p x); cbn [length]; lia]. Qed.
Lemma filter_lt {A} (p p' : A -> bool) l x : (forall x, p' x = true -> p x = true) -> In x l -> p x = true -> p' x = false -> length (filter p' l) < length (filter p l).
Proof.
  intros H. induction l as [|y l IH]; [intros []|]. intros [->|I] P P'; cbn [filter].
  - rewrite P, P'. cbn [length]. pose proof (filter_less p p' l H). lia.
  - specialize (IH I P P'). pose proof (H y) as Hy. destruct (p' y); [rewrite (Hy eq_refl); cbn [length]; lia|destruct (p y); cbn [length]; lia].
Qed.
Lemma missing_lt lim got i : i < lim -> ~ In i got -> missing lim (i :: got) < missing lim got.
Proof.
  intros Hi N. unfold missing. apply (filter_lt _ _ _ i).
  - intros x. destruct (in_dec Nat.eq_dec x (i :: got)) as [H|H]; [discriminate|]. intros _. destruct (in_dec Nat.eq_dec x got) as [K|K]; [exfalso; apply H; right; exact K|reflexivity].
  - apply in_seq. lia.
  - destruct (in_dec Nat.eq_dec i got); [contradiction|reflexivity].
  - destruct (in_dec Nat.eq_dec i (i :: got)) as [|H]; [reflexivity|exfalso; apply H; left; reflexivity].
Qed.
(** The components: the workers, the collecting loop. *)
Definition main_rank (lim : nat) (st : fstate) : nat * nat :=
  ((if fs_prep st then 0 else 1) + missing lim (fs_got st), match fs_main st with None => 0 | Some (_, l) => S (length l) end).
Definition ranks (lim : nat) (st : fstate) : list (nat * nat) := main_rank lim st :: map rank (fs_work st).

Section End_.
Context (im : fimg) (srt : point -> list point -> option (list point)) (lim : nat) (c0 : core par).
Hypothesis H0 : fit_start lim (c_ev c0).
Lemma step_down q st cc a st' : sim im srt lim c0 q st cc -> enabled st a -> fine_step im srt st a = Some st' -> down1 lt2 (ranks lim st') (ranks lim st).
Proof.
  intros J En E. unfold ranks. destruct a as [i| |i|]; cbn [fine_step] in E.
  - destruct (nth_error (fs_work st) i) as [ph|] eqn:Ew; [|discriminate]. destruct (nth_error (c_pop _) i); [|discriminate]. destruct (nth_error (c_muts _) i); [|discriminate]. destruct (at_pos _ i) as [[id f]|]; [|discriminate].
    destruct (fun_step _ _ _ _ _ _ _ _) as [[f' ph']|] eqn:Ef; [|discriminate]. injection E as <-. cbn [fs_work main_rank fs_main fs_prep fs_got]. rewrite (L_Algo4.map_set_nth rank).
    apply (down_at lt2 (S i) (rank ph) (rank ph') (main_rank lim st :: map rank (fs_work st))); [cbn [nth_error]; rewrite nth_error_map, Ew; reflexivity|]. apply (rank_step _ _ _ _ _ _ _ _ _ _ Ef).
  - cbn [enabled] in En. injection E as <-. cbn [fs_work].
    apply (down_at lt2 0 (main_rank lim st) _ (main_rank lim st :: map rank (fs_work st))); [reflexivity|]. unfold lt2, main_rank. cbn [fs_prep fs_got fs_main fst]. rewrite En. left. lia.
  - destruct En as (P & M & Rn & Ng). destruct (result _ i) as [v|] eqn:Rv; [|discriminate]. destruct (at_pos _ i) as [[id f]|]; [|discriminate]. destruct (put _ _ _); [|discriminate]. destruct (cache_view _ _) as [[view al]|]; [|discriminate]. injection E as <-. cbn [fs_work].
    apply (down_at lt2 0 (main_rank lim st) _ (main_rank lim st :: map rank (fs_work st))); [reflexivity|]. unfold lt2, main_rank. cbn [fs_prep fs_got fs_main fst]. left.
    assert (Hi : i < lim) by (apply (j_lt _ _ _ _ _ _ _ J), (j_res _ _ _ _ _ _ _ J); congruence). pose proof (missing_lt lim (fs_got st) i Hi Ng). lia.
  - destruct (fs_main st) as [[i [|d l]]|] eqn:M; [| |discriminate].
    + destruct (at_pos _ i) as [[id f]|]; [|discriminate]. injection E as <-. cbn [fs_work].
      apply (down_at lt2 0 (main_rank lim st) _ (main_rank lim st :: map rank (fs_work st))); [reflexivity|]. unfold lt2, main_rank. cbn [fs_prep fs_got fs_main fst snd]. rewrite M. cbn [length]. right. lia.
    + destruct d as [e|]; [|discriminate]. destruct (nth_error _ _) as [arr|]; [|discriminate]. destruct (zset _ _ _); cbn [option_map] in E; [|discriminate]. injection E as <-. cbn [fs_work].
      apply (down_at lt2 0 (main_rank lim st) _ (main_rank lim st :: map rank (fs_work st))); [reflexivity|]. unfold lt2, main_rank. cbn [fs_prep fs_got fs_main fst snd]. rewrite M. cbn [length]. right. lia.
Qed.
Lemma fine_ends st : (exists q cc, sim im srt lim c0 q st cc) -> Acc (fun st' st => exists a, enabled st a /\ fine_step im srt st a = Some st') st.
Proof.
  remember (ranks lim st) as x eqn:Ex. revert st Ex. induction x as [x IH] using (well_founded_induction (down1_wf lt2 lt2_wf)). intros st -> (q & cc & J). constructor. intros st' (a & En & Es).
  apply (IH _ (step_down q st cc a st' J En Es) st' eq_refl). destruct a as [i| |i|].
  - pose proof (work_step im srt lim c0 H0 q st cc i J En) as X. rewrite Es in X. destruct X as [X|(b & cc' & _ & X)]; eauto.
  - destruct (prep_step im srt lim c0 q st cc J En) as (s1 & E' & cc' & _ & X). rewrite Es in E'. injection E' as <-. eauto.
  - pose proof (recv_step im srt lim c0 H0 q st cc i J En) as X. rewrite Es in X. eauto.
  - pose proof (upd_step im srt lim c0 H0 q st cc J En) as X. rewrite Es in X. destruct X as [X|(b & cc' & _ & X)]; eauto.
Qed.
End End_.
