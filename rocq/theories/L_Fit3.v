(** Re-evaluation of an unchanged function (C27). *)
From Coq Require Import ZArith List Bool Lia Arith Permutation.
From Verif Require Import GoNum M_Norm M_Slice M_Geom M_Image M_Raster M_Delaunay M_Algo M_Fitness S_Fitness L_PMap L_Algo2 L_Fit.
Import ListNotations.
Open Scope Z_scope.

Section Keep.
Variables (im : fimg) (srt : point -> list point -> option (list point)) (d : delaunay) (f : f64).
Hypothesis Hf : plain_fitness im d = Some f.

Record keeps (p : bare) (pos : nat) : Prop := {
  kp_nd : NoDup (b_order p);
  kp_at : exists id, b_at p pos = Some (id, (Some d, None)) }.

Lemma b_at_some {T} (p : keeper T) i id x : b_at p i = Some (id, x) <-> nth_error (b_order p) i = Some id /\ nth_error (b_funs p) id = Some x.
Proof.
  unfold b_at. destruct (nth_error (b_order p) i) as [k|]; [|split; [discriminate|intros [H _]; discriminate]].
  destruct (nth_error (b_funs p) k) as [y|] eqn:E; cbn [option_map].
  - split; [intros [= <- <-]; auto|intros [[= <-] H]]. rewrite E in H. injection H as <-. reflexivity.
  - split; [discriminate|intros [[= <-] H]; congruence].
Qed.
Lemma b_at_set {T} (p : keeper T) i pos id x jd y b : NoDup (b_order p) -> b_at p i = Some (id, x) -> b_at p pos = Some (jd, y) -> i <> pos ->
  b_at (Bare (set_nth id b (b_funs p)) (b_order p)) pos = Some (jd, y).
Proof.
  intros Hn Hi Hp Hne. apply b_at_some in Hi as [A B]. apply b_at_some in Hp as [C D]. apply b_at_some. cbn [b_order b_funs]. split; [exact C|].
  rewrite nth_error_set_nth. destruct (id =? jd)%nat eqn:E; [|exact D]. apply Nat.eqb_eq in E. subst jd. exfalso. apply Hne.
  apply (proj1 (NoDup_nth_error (b_order p)) Hn); [apply nth_error_Some; congruence|congruence].
Qed.

Lemma bare_step_keeps p fs o p' fs' pos : keeps p pos -> eop_step (bare_ev im srt) (p, fs) o = Some (p', fs') -> untouched pos [o] <> None ->
  exists pos', untouched pos [o] = Some pos' /\ keeps p' pos' /\ (exists l, fs' = fs ++ l /\ length l = calcs [o]).
Proof.
  intros [Hn (id0 & H0)]. destruct o as [i pts muts|i| |i j|i j]; unfold bare_ev; cbn [eop_step keep_ev ev_calc ev_update ev_prepare ev_base ev_swap untouched].
  - destruct (b_at p i) as [[id [tri base]]|] eqn:Ea; [|discriminate].
    destruct (match base with Some b => (b =? id)%nat | None => false end) eqn:Es; [discriminate|].
    destruct (next_tri _ _ _ _ _ _) as [d'|] eqn:En; [|discriminate]. destruct (plain_fitness im d') as [g|] eqn:Eg; [|discriminate].
    cbn [option_map fst snd]. intros [= <- <-] _. exists pos. split; [reflexivity|]. split; [|exists [g]; split; reflexivity].
    constructor; [exact Hn|]. destruct (Nat.eq_dec i pos) as [->|Ne].
    + rewrite H0 in Ea. injection Ea as <- <- <-. exists id0. apply b_at_some in H0 as [A B]. apply b_at_some. cbn [b_order b_funs]. split; [exact A|].
      rewrite nth_error_set_nth, Nat.eqb_refl. assert (L : (id0 < length (b_funs p))%nat) by (apply nth_error_Some; congruence).
      apply Nat.ltb_lt in L. rewrite L. cbn [next_tri] in En. congruence.
    + exists id0. apply (b_at_set p i pos id (tri, base)); assumption.
  - destruct (b_at p i); [|discriminate]. cbn [option_map]. intros [= <- <-] _. exists pos. split; [reflexivity|]. split; [constructor; eauto|exists []; rewrite app_nil_r; auto].
  - cbn [option_map]. intros [= <- <-] _. exists pos. split; [reflexivity|]. split; [constructor; eauto|exists []; rewrite app_nil_r; auto].
  - destruct (b_at p i) as [[id [tri base]]|] eqn:Ea; [|discriminate]. destruct (b_at p j) as [[jd [trj ?]]|] eqn:Eb; [|discriminate].
    cbn [option_map]. intros [= <- <-] Hu. destruct (i =? pos)%nat eqn:Ei; [contradiction|]. apply Nat.eqb_neq in Ei.
    exists pos. split; [reflexivity|]. split; [|exists []; rewrite app_nil_r; auto].
    constructor; [exact Hn|]. exists id0. apply (b_at_set p i pos id (tri, base)); assumption.
  - destruct (swap_at i j (b_order p)) as [o|] eqn:Eo; [|discriminate]. cbn [option_map]. intros [= <- <-] _.
    eexists. split; [reflexivity|]. split; [|exists []; rewrite app_nil_r; auto].
    constructor; cbn [b_order]; [apply (Permutation_NoDup (Permutation_sym (swap_at_perm _ _ _ _ Eo)) Hn)|]. exists id0.
    apply b_at_some in H0 as [A B]. apply b_at_some. cbn [b_order b_funs]. split; [|exact B].
    unfold swap_at in Eo. destruct (nth_error (b_order p) i) as [x|] eqn:Ei; [|discriminate]. destruct (nth_error (b_order p) j) as [y|] eqn:Ej; [|discriminate].
    injection Eo as <-. assert (Li : (i < length (b_order p))%nat) by (apply nth_error_Some; congruence). assert (Lj : (j < length (b_order p))%nat) by (apply nth_error_Some; congruence).
    apply Nat.ltb_lt in Li, Lj. rewrite !nth_error_set_nth, !set_nth_length.
    destruct (pos =? i)%nat eqn:E1; [apply Nat.eqb_eq in E1; subst pos; rewrite Nat.eqb_refl, Lj; congruence|].
    destruct (pos =? j)%nat eqn:E2.
    + apply Nat.eqb_eq in E2. subst pos. rewrite E1, Nat.eqb_refl, Li. congruence.
    + rewrite (Nat.eqb_sym j pos), E2, (Nat.eqb_sym i pos), E1. exact A.
Qed.

Lemma calcs_cons o ops : calcs (o :: ops) = (calcs [o] + calcs ops)%nat.
Proof. unfold calcs. cbn [filter]. destruct o; reflexivity. Qed.
Lemma untouched_cons pos o ops : untouched pos (o :: ops) = match untouched pos [o] with None => None | Some q => untouched q ops end.
Proof. destruct o; cbn [untouched]; try reflexivity. destruct (i =? pos)%nat; reflexivity. Qed.

Lemma bare_run_keeps ops : forall p fs p' fs' pos pos', keeps p pos -> foldM (eop_step (bare_ev im srt)) ops (p, fs) = Some (p', fs') -> untouched pos ops = Some pos' ->
  keeps p' pos' /\ (exists l, fs' = fs ++ l /\ length l = calcs ops).
Proof.
  induction ops as [|o ops IH]; intros p fs p' fs' pos pos' Hk; cbn [foldM].
  - intros [= <- <-] [= <-]. split; [exact Hk|exists []; rewrite app_nil_r; auto].
  - rewrite untouched_cons, calcs_cons. destruct (eop_step (bare_ev im srt) (p, fs) o) as [[p1 fs1]|] eqn:E; [|discriminate]. intros H1 H2.
    destruct (bare_step_keeps p fs o p1 fs1 pos Hk E) as (q & Eq & K1 & l1 & -> & L1); [intros N; rewrite N in H2; discriminate|].
    rewrite Eq in H2. destruct (IH p1 (fs ++ l1) p' fs' q pos' K1 H1 H2) as (K2 & l2 & -> & L2). split; [exact K2|].
    exists (l1 ++ l2). rewrite app_assoc, app_length. split; [reflexivity|lia].
Qed.
End Keep.

Lemma bare_order_nodup im srt ops : forall p fs p' fs', NoDup (b_order p) -> foldM (eop_step (bare_ev im srt)) ops (p, fs) = Some (p', fs') ->
  NoDup (b_order p') /\ exists l, fs' = fs ++ l /\ length l = calcs ops.
Proof.
  induction ops as [|o ops IH]; intros p fs p' fs' Hn; cbn [foldM]; [intros [= <- <-]; split; [exact Hn|exists []; rewrite app_nil_r; auto]|].
  rewrite calcs_cons. destruct (eop_step (bare_ev im srt) (p, fs) o) as [[p1 fs1]|] eqn:E; [|discriminate]. intros H.
  assert (K : NoDup (b_order p1) /\ exists l, fs1 = fs ++ l /\ length l = calcs [o]).
  { clear H IH. destruct o as [i pts muts|i| |i j|i j]; unfold bare_ev in E; cbn [eop_step keep_ev ev_calc ev_update ev_prepare ev_base ev_swap] in E.
    - destruct (b_at p i) as [[id [tri base]]|]; [|discriminate]. destruct (match base with Some b => (b =? id)%nat | None => false end); [discriminate|].
      destruct (next_tri _ _ _ _ _ _) as [d'|]; [|discriminate]. destruct (plain_fitness im d') as [g|]; [|discriminate]. cbn [option_map fst snd] in E.
      injection E as <- <-. split; [exact Hn|exists [g]; split; reflexivity].
    - destruct (b_at p i); [|discriminate]. injection E as <- <-. split; [exact Hn|exists []; rewrite app_nil_r; auto].
    - injection E as <- <-. split; [exact Hn|exists []; rewrite app_nil_r; auto].
    - destruct (b_at p i) as [[? [? ?]]|]; [|discriminate]. destruct (b_at p j) as [[? [? ?]]|]; [|discriminate]. injection E as <- <-. split; [exact Hn|exists []; rewrite app_nil_r; auto].
    - destruct (swap_at i j (b_order p)) as [o|] eqn:Eo; [|discriminate]. injection E as <- <-. split; [|exists []; rewrite app_nil_r; auto].
      apply (Permutation_NoDup (Permutation_sym (swap_at_perm _ _ _ _ Eo)) Hn). }
  destruct K as (N1 & l1 & -> & L1). destruct (IH p1 _ p' fs' N1 H) as (N2 & l2 & -> & L2). split; [exact N2|].
  exists (l1 ++ l2). rewrite app_assoc, app_length. split; [reflexivity|lia].
Qed.

Lemma foldM_app {A B} (g : B -> A -> option B) l1 l2 b : foldM g (l1 ++ l2) b = match foldM g l1 b with None => None | Some b' => foldM g l2 b' end.
Proof. revert b. induction l1 as [|a l1 IH]; intros b; cbn [app foldM]; [reflexivity|]. destruct (g b a); [apply IH|reflexivity]. Qed.

Lemma bare_calc_keeps im srt p fs i pts muts p' fs' : NoDup (b_order p) -> eop_step (bare_ev im srt) (p, fs) (OCalc i pts muts) = Some (p', fs') ->
  exists d f, plain_fitness im d = Some f /\ fs' = fs ++ [f] /\ keeps d p' i.
Proof.
  intros Hn. unfold bare_ev; cbn [eop_step keep_ev ev_calc]. destruct (b_at p i) as [[id [tri base]]|] eqn:Ea; [|discriminate].
  destruct (match base with Some b => (b =? id)%nat | None => false end); [discriminate|].
  destruct (next_tri _ _ _ _ _ _) as [d|]; [|discriminate]. destruct (plain_fitness im d) as [f|] eqn:Ef; [|discriminate]. cbn [option_map fst snd].
  intros [= <- <-]. exists d, f. split; [exact Ef|]. split; [reflexivity|]. constructor; [exact Hn|]. exists id.
  apply b_at_some in Ea as [A B]. apply b_at_some. cbn [b_order b_funs]. split; [exact A|]. rewrite nth_error_set_nth, Nat.eqb_refl.
  assert (L : (id < length (b_funs p))%nat) by (apply nth_error_Some; congruence). apply Nat.ltb_lt in L. rewrite L. reflexivity.
Qed.

Lemma bare_same_fitness im srt n ops1 i pts muts ops2 j pts' muts' p fs :
  eop_run (bare_ev im srt) (new_bare n) (ops1 ++ OCalc i pts muts :: ops2 ++ [OCalc j pts' muts']) = Some (p, fs) -> untouched i ops2 = Some j ->
  exists A f B, fs = A ++ f :: B ++ [f] /\ length A = calcs ops1 /\ length B = calcs ops2.
Proof.
  unfold eop_run. rewrite foldM_app. destruct (foldM _ ops1 _) as [[p1 A]|] eqn:E1; [|discriminate]. cbn [foldM].
  destruct (bare_order_nodup im srt ops1 (new_bare n) [] p1 A (seq_NoDup _ _) E1) as (N1 & l & El & Ll). cbn [app] in El. subst l.
  destruct (eop_step (bare_ev im srt) (p1, A) (OCalc i pts muts)) as [[p2 fs2]|] eqn:E2; [|discriminate].
  destruct (bare_calc_keeps im srt p1 A i pts muts p2 fs2 N1 E2) as (d & f & Ef & -> & K2).
  rewrite foldM_app. destruct (foldM _ ops2 _) as [[p3 fs3]|] eqn:E3; [|discriminate]. intros H Hu.
  destruct (bare_run_keeps im srt d ops2 p2 _ p3 fs3 i j K2 E3 Hu) as (K3 & B & -> & LB).
  cbn [foldM] in H. destruct (eop_step (bare_ev im srt) (p3, (A ++ [f]) ++ B) (OCalc j pts' muts')) as [[p4 fs4]|] eqn:E4; [|discriminate].
  injection H as <- <-. destruct K3 as [_ (id & H3)]. unfold bare_ev in E4; cbn [eop_step keep_ev ev_calc] in E4. rewrite H3 in E4. cbn [next_tri] in E4. rewrite Ef in E4.
  cbn [option_map fst snd] in E4. injection E4 as <- <-. exists A, f, B. split; [|split; assumption]. rewrite <- !app_assoc. reflexivity.
Qed.
