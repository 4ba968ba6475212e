(** Which cache arrays are read and written while the workers run (C36). *)
From Coq Require Import ZArith List Bool Arith Lia Permutation.
From Flocq Require Import IEEE754.BinarySingleNaN.
From Verif Require Import GoNum M_Norm M_Slice M_Geom M_Image M_Raster S_Norm M_Delaunay S_Delaunay M_Algo S_Algo M_Fitness S_Fitness S_Run
  L_PMap L_Slice L_Algo L_Algo2 L_Algo4 L_Fit L_Hold.
Import ListNotations.

Local Open Scope nat_scope.
Section Race.
Context (im : fimg) (srt : point -> list point -> option (list point)).
Notation ev := (parallel im srt).
Record pwf (n : nat) (p : par) : Prop := {
  pw_nd : NoDup (p_order p); pw_len : length (p_order p) = n; pw_cur : p_cur p < 2; pw_arrs : length (p_arrs p) = 2;
  pw_at : forall i, (i < n)%nat -> exists id f, at_pos p i = Some (id, f) }.
Definition tag (p : par) (i : nat) : option tcache := option_map (fun x => tf_cache (snd x)) (at_pos p i).

Lemma at_pos_set n p i id f g arrs cur k : pwf n p -> at_pos p i = Some (id, f) -> (k < n)%nat ->
  at_pos (Par (set_nth id g (p_funs p)) (p_order p) arrs cur) k = if (k =? i)%nat then Some (id, g) else at_pos p k.
Proof.
  intros W A Hk. apply at_pos_In in A as (A1 & A2 & _). unfold at_pos. cbn [p_order p_funs]. destruct (Nat.eqb_spec k i) as [->|N].
  - rewrite A1, nth_error_set_nth, Nat.eqb_refl. assert (id < length (p_funs p))%nat by (apply nth_error_Some; congruence). destruct (Nat.ltb_spec id (length (p_funs p))); [reflexivity|lia].
  - destruct (nth_error (p_order p) k) as [kd|] eqn:Ek; [|reflexivity]. rewrite nth_error_set_nth. destruct (Nat.eqb_spec id kd) as [<-|]; [|reflexivity].
    exfalso. apply N. eapply NoDup_nth_error; [apply W|rewrite (pw_len _ _ W); exact Hk|congruence].
Qed.
Lemma pwf_set n p i id f g arrs cur : pwf n p -> at_pos p i = Some (id, f) -> cur < 2 -> length arrs = 2 -> pwf n (Par (set_nth id g (p_funs p)) (p_order p) arrs cur).
Proof.
  intros W A C L. constructor; cbn [p_order p_cur p_arrs]; try apply W; try assumption. intros k Hk. rewrite (at_pos_set n p i id f) by assumption.
  destruct (k =? i)%nat; [eauto|apply W, Hk].
Qed.
Lemma calc_tag n p i pts log p' v : pwf n p -> (i < n)%nat -> par_calc im srt p i pts log = Some (p', v) ->
  pwf n p' /\ p_arrs p' = p_arrs p /\ p_cur p' = p_cur p /\ p_order p' = p_order p /\ forall k, (k < n)%nat -> k <> i -> tag p' k = tag p k.
Proof.
  intros W Hi. unfold par_calc. destruct (at_pos p i) as [[id f]|] eqn:A; [|discriminate]. destruct (match tf_base f with Some b => (b =? id)%nat | None => false end); [discriminate|].
  cbv zeta. destruct (calc_fun im srt (p_arrs p) f _ pts log) as [[f' fit]|]; [|discriminate]. intros [= <- <-]. cbn [p_arrs p_cur p_order].
  split; [eapply pwf_set; eauto; apply W|]. repeat split. intros k Hk N. unfold tag. rewrite (at_pos_set n p i id f) by assumption. destruct (Nat.eqb_spec k i); [contradiction|reflexivity].
Qed.
Lemma update_tag n p i p' : pwf n p -> (i < n)%nat -> par_update p i = Some p' ->
  pwf n p' /\ p_cur p' = p_cur p /\ p_order p' = p_order p /\ (forall k, k <> p_cur p -> nth_error (p_arrs p') k = nth_error (p_arrs p) k) /\
  tag p' i = Some (CArr (p_cur p)) /\ forall k, (k < n)%nat -> k <> i -> tag p' k = tag p k.
Proof.
  intros W Hi. unfold par_update. destruct (at_pos p i) as [[id f]|] eqn:A; [|discriminate]. destruct (cache_view (p_arrs p) (tf_cache f)) as [[view b]|]; [|discriminate].
  destruct (nth_error (p_arrs p) (p_cur p)) as [arr|]; [|discriminate]. destruct (foldM _ view arr) as [arr'|]; [|discriminate]. intros [= <-]. cbn [p_arrs p_cur p_order].
  split; [eapply pwf_set; eauto; [apply W|rewrite set_nth_length; apply W]|]. split; [reflexivity|]. split; [reflexivity|]. split; [|split].
  - intros k N. rewrite nth_error_set_nth. destruct (Nat.eqb_spec (p_cur p) k); [congruence|reflexivity].
  - unfold tag. rewrite (at_pos_set n p i id f) by assumption. rewrite Nat.eqb_refl. reflexivity.
  - intros k Hk N. unfold tag. rewrite (at_pos_set n p i id f) by assumption. destruct (Nat.eqb_spec k i); [contradiction|reflexivity].
Qed.
Lemma prepare_tag n p p' : pwf n p -> par_prepare p = Some p' -> pwf n p' /\ p_cur p' = 1 - p_cur p /\ p_arrs p' = p_arrs p /\ p_order p' = p_order p /\ forall k, tag p' k = tag p k.
Proof.
  intros W. unfold par_prepare. intros H. inversion H as [H1]. clear H H1. split; [constructor; cbn [p_order p_cur p_arrs]; [apply W|apply W|pose proof (pw_cur _ _ W); destruct (p_cur p); lia|apply W|exact (pw_at _ _ W)]|]. repeat split.
Qed.
(** SetBase changes neither the arrays nor who reads which. *)
Definition same_caches (n : nat) (p p' : par) : Prop :=
  pwf n p -> pwf n p' /\ p_cur p' = p_cur p /\ p_arrs p' = p_arrs p /\ p_order p' = p_order p /\ forall k, (k < n)%nat -> tag p' k = tag p k.
Lemma same_refl n p : same_caches n p p. Proof. intros W. repeat split; apply W. Qed.
Lemma same_trans n p q r : same_caches n p q -> same_caches n q r -> same_caches n p r.
Proof.
  intros A B W. destruct (A W) as (W1 & A1 & A2 & A3 & A4). destruct (B W1) as (W2 & B1 & B2 & B3 & B4). split; [exact W2|]. repeat split; try congruence. intros k Hk. rewrite B4, A4 by exact Hk. reflexivity.
Qed.
Lemma base_tag n p i j p' : par_base p i j = Some p' -> same_caches n p p'.
Proof.
  intros E W. unfold par_base in E. destruct (at_pos p i) as [[id f]|] eqn:A; [|discriminate]. destruct (at_pos p j) as [[jd g]|]; [|discriminate]. injection E as <-. cbn [p_arrs p_cur p_order].
  split; [eapply pwf_set; eauto; apply W|]. repeat split. intros k Hk. unfold tag. rewrite (at_pos_set n p i id f) by assumption. destruct (Nat.eqb_spec k i) as [->|]; [rewrite A; reflexivity|reflexivity].
Qed.

(** newGeneration changes the evaluator by SetBase only. *)
Section Gen.
Context {E : Type} (eva : evaluator E) (R : E -> E -> Prop).
Hypothesis Rrefl : forall e, R e e.
Hypothesis Rtrans : forall a b c, R a b -> R b c -> R a c.
Hypothesis Rbase : forall e i j e', ev_base eva e i j = Some e' -> R e e'.
Lemma copy_same i j (c c' : core E) : copy_member i j c = Some c' -> c_ev c' = c_ev c /\ c_fits c' = c_fits c.
Proof.
  unfold copy_member. destruct (nth_error (c_newpop c) i); [|discriminate]. destruct (nth_error (c_pop c) j); [|discriminate]. destruct (put i [] (c_muts c)); [|discriminate].
  destruct (buf_set (c_store c) n n0); [|discriminate]. cbn [option_map]. intros [= <-]. split; reflexivity.
Qed.
Lemma keep_same m : forall i (c c' : core E), keep_bases m i c = Some c' -> c_ev c' = c_ev c /\ c_fits c' = c_fits c.
Proof.
  induction m as [|m IH]; intros i c c'; cbn [keep_bases]; [intros [= <-]; split; reflexivity|]. destruct (copy_member i i c) as [c1|] eqn:E1; [|discriminate].
  intros H. apply IH in H as [-> ->]. eapply copy_same, E1.
Qed.
Definition rel2 (c c' : core E) : Prop := R (c_ev c) (c_ev c') /\ c_fits c' = c_fits c.
Lemma rel2_trans a b c : rel2 a b -> rel2 b c -> rel2 a c.
Proof. intros [A1 A2] [B1 B2]. split; [eapply Rtrans; eauto|congruence]. Qed.
Lemma rel2_refl a : rel2 a a. Proof. split; auto. Qed.
Lemma new_member_rel mu i j (c c' : core E) : new_member eva mu i j c = Some c' -> rel2 c c'.
Proof.
  unfold new_member. destruct (copy_member i j c) as [c1|] eqn:E1; [|discriminate]. apply copy_same in E1 as [E1 E2]. destruct (ev_base eva (c_ev c1) i j) as [e|] eqn:Eb; [|discriminate].
  destruct (nth_error (c_newpop c1) i); [|discriminate]. destruct (mu i _). intros [= <-]. split; cbn [with_ev c_ev c_fits]; [rewrite <- E1; eapply Rbase, Eb|exact E2].
Qed.
Lemma inner_rel mu m : forall j i lim (c c' : core E) i', inner_loop eva mu m j i lim c = Some (c', i') -> rel2 c c'.
Proof.
  induction m as [|m IH]; intros j i lim c c' i'; cbn [inner_loop]; [intros [= <- <-]; apply rel2_refl|]. destruct (i <? lim)%nat; [|intros [= <- <-]; apply rel2_refl].
  destruct (new_member eva mu i j c) as [c1|] eqn:E1; [|discriminate]. intros H. eapply rel2_trans; [eapply new_member_rel, E1|eapply IH, H].
Qed.
Lemma outer_rel mu cutoff lim m : forall i (c c' : core E), outer_loop eva m mu cutoff i lim c = Some c' -> rel2 c c'.
Proof.
  induction m as [|m IH]; intros i c c'; cbn [outer_loop]; destruct (i <? lim)%nat; try discriminate; try (intros [= <-]; apply rel2_refl).
  destruct (inner_loop eva mu cutoff 0 i lim c) as [[c1 i1]|] eqn:E1; [|discriminate]. intros H. eapply rel2_trans; [eapply inner_rel, E1|eapply IH, H].
Qed.
Lemma generation_rel mu cutoff lim (c c' : core E) : new_generation eva mu cutoff lim c = Some c' -> rel2 c c'.
Proof.
  unfold new_generation. destruct (keep_bases cutoff 0 c) as [c1|] eqn:E1; [|discriminate]. apply keep_same in E1 as [E1 E1'].
  destruct (outer_loop eva lim mu cutoff cutoff lim c1) as [c2|] eqn:E2; [|discriminate]. intros [= <-]. apply outer_rel in E2 as [E2 E2']. split; cbn [c_ev c_fits]; congruence.
Qed.
End Gen.
Lemma generation_same n mu cutoff lim c c' : new_generation ev mu cutoff lim c = Some c' -> same_caches n (c_ev c) (c_ev c') /\ c_fits c' = c_fits c.
Proof. apply (generation_rel ev (same_caches n)); [apply same_refl|apply same_trans|]. intros e i j e' H. eapply base_tag, H. Qed.

(** The positions below [lim] read the current array or none. *)
Definition ready (n lim : nat) (p : par) : Prop := pwf n p /\ forall i, (i < lim)%nat -> tag p i = Some CInit \/ tag p i = Some (CArr (p_cur p)).
Record rinv (n lim : nat) (p0 : par) (q : list act) (p : par) : Prop := {
  ri_wf : pwf n p; ri_cur : p_cur p = if in_dec (fun x y : act => ltac:(decide equality; apply Nat.eq_dec)) Prep q then 1 - p_cur p0 else p_cur p0;
  ri_order : p_order p = p_order p0; ri_arr : nth_error (p_arrs p) (p_cur p0) = nth_error (p_arrs p0) (p_cur p0);
  ri_todo : forall i, (i < n)%nat -> ~ In (Calc i) q -> tag p i = tag p0 i;
  ri_done : forall i, In (Recv i) q -> tag p i = Some (CArr (1 - p_cur p0)) }.
Lemma in_dec_true {A} (d : forall x y : A, {x = y} + {x <> y}) a q (x y : nat) : In a q -> (if in_dec d a q then x else y) = x.
Proof. intros I. destruct (in_dec d a q); [reflexivity|contradiction]. Qed.
Lemma in_dec_app {A} (d : forall x y : A, {x = y} + {x <> y}) a b q (x y : nat) : b <> a -> (if in_dec d a (q ++ [b]) then x else y) = if in_dec d a q then x else y.
Proof.
  intros N. destruct (in_dec d a (q ++ [b])) as [I|I], (in_dec d a q) as [J|J]; try reflexivity.
  - apply in_app_or in I as [I|[I|[]]]; contradiction.
  - exfalso. apply I, in_or_app. auto.
Qed.
Lemma race_act n lim p0 q c r a c' r' : (lim <= n)%nat -> ready n lim p0 -> ~ In a q -> (forall i, a = Calc i \/ a = Recv i -> (i < lim)%nat) -> (forall i, a = Recv i -> In (Calc i) q /\ In Prep q) ->
  (forall i, In (Recv i) q -> In (Calc i) q) ->
  rinv n lim p0 q (c_ev c) -> do_act ev (c, r) a = Some (c', r') -> rinv n lim p0 (q ++ [a]) (c_ev c').
Proof.
  intros Hl [W0 T0] Hna Hlim Hrec Hcal [W C O A T D]. unfold do_act. destruct a as [|i|i].
  - destruct (ev_prepare ev (c_ev c)) as [e|] eqn:E; [|discriminate]. cbn [option_map]. intros [= <- <-]. cbn [with_ev c_ev].
    destruct (prepare_tag n _ _ W E) as (W1 & P1 & P2 & P3 & P4). constructor; [exact W1| |congruence|congruence| |].
    + rewrite P1, C. destruct (in_dec _ Prep q) as [I|_]; [contradiction|]. rewrite in_dec_true by (apply in_or_app; right; left; reflexivity). reflexivity.
    + intros k Hk N. rewrite P4. apply T; [exact Hk|]. intros I. apply N, in_or_app. auto.
    + intros k I. rewrite P4. apply D. apply in_app_or in I as [I|[I|[]]]; [exact I|discriminate].
  - destruct (nth_error (c_pop c) i); [|discriminate]. destruct (nth_error (c_muts c) i); [|discriminate]. destruct (ev_calc ev (c_ev c) i _ _) as [[e f]|] eqn:E; [|discriminate].
    cbn [option_map fst snd]. intros [= <- <-]. cbn [with_ev c_ev]. specialize (Hlim i (or_introl eq_refl)).
    destruct (calc_tag n _ i _ _ _ _ W ltac:(lia) E) as (W1 & P1 & P2 & P3 & P4). constructor; [exact W1| |congruence|congruence| |].
    + rewrite P2, C. symmetry. apply in_dec_app. discriminate.
    + intros k Hk N. rewrite P4; [apply T; [exact Hk|]|exact Hk|].
      * intros I. apply N, in_or_app. auto.
      * intros ->. apply N, in_or_app. right. left. reflexivity.
    + intros k I. apply in_app_or in I as [I|[I|[]]]; [|discriminate]. rewrite P4; [apply D, I| |].
      * destruct (Nat.lt_ge_cases k n) as [|Hk]; [assumption|]. exfalso. specialize (D k I). unfold tag in D. destruct (at_pos (c_ev c) k) as [[id f']|] eqn:Ek; [|discriminate].
        apply at_pos_In in Ek as (Ek & _). assert (k < length (p_order (c_ev c)))%nat by (apply nth_error_Some; congruence). rewrite (pw_len _ _ W) in *. lia.
      * intros ->. apply Hna, Hcal, I.
  - destruct (result r i); [|discriminate]. destruct (put i _ (c_fits c)); [|discriminate]. destruct (ev_update ev (c_ev c) i) as [e|] eqn:E; [|discriminate]. intros [= <- <-]. cbn [with_ev c_ev].
    specialize (Hlim i (or_intror eq_refl)). destruct (Hrec i eq_refl) as [Hc Hp]. destruct (update_tag n _ i _ W ltac:(lia) E) as (W1 & P1 & P2 & P3 & P4 & P5).
    rewrite in_dec_true in C by exact Hp. pose proof (pw_cur _ _ W0) as C0. constructor; [exact W1| |congruence| | |].
    + rewrite P1, C. symmetry. apply in_dec_true, in_or_app. auto.
    + rewrite P3 by lia. exact A.
    + intros k Hk N. assert (N' : ~ In (Calc k) q) by (intros I; apply N, in_or_app; auto). rewrite P5; [apply T; assumption|exact Hk|]. intros ->. contradiction.
    + intros k I. destruct (Nat.eq_dec k i) as [->|Nk]; [rewrite P4, C; reflexivity|]. apply in_app_or in I as [I|[I|[]]]; [|congruence]. rewrite P5; [apply D, I| |exact Nk].
      destruct (Nat.lt_ge_cases k n) as [|Hk]; [assumption|]. exfalso. specialize (D k I). unfold tag in D. destruct (at_pos (c_ev c) k) as [[id f']|] eqn:Ek; [|discriminate].
      apply at_pos_In in Ek as (Ek & _). assert (k < length (p_order (c_ev c)))%nat by (apply nth_error_Some; congruence). rewrite (pw_len _ _ W) in *. lia.
Qed.
Lemma race_acts n lim p0 s : (lim <= n)%nat -> ready n lim p0 -> forall q c r c' r' l2, ordered (q ++ s ++ l2) -> (forall i, In (Calc i) (q ++ s ++ l2) \/ In (Recv i) (q ++ s ++ l2) -> (i < lim)%nat) ->
  rinv n lim p0 q (c_ev c) -> do_acts ev s (c, r) = Some (c', r') -> rinv n lim p0 (q ++ s) (c_ev c').
Proof.
  intros Hl H0. induction s as [|a s IH]; intros q c r c' r' l2 Ho Hi Hr; cbn [do_acts].
  - intros H; inversion H; subst. rewrite app_nil_r. exact Hr.
  - destruct (do_act ev (c, r) a) as [[c1 r1]|] eqn:Ea; [|discriminate]. intros H.
    replace (q ++ a :: s) with ((q ++ [a]) ++ s) by (rewrite <- app_assoc; reflexivity).
    assert (Eq : (q ++ (a :: s) ++ l2) = ((q ++ [a]) ++ s ++ l2)) by (rewrite <- !app_assoc; reflexivity). pose proof Ho as [Hnd Ho'].
    apply IH with (c := c1) (r := r1) (r' := r') (l2 := l2); [rewrite <- Eq; exact Ho|rewrite <- Eq; exact Hi| |exact H].
    apply (race_act n lim p0 q c r a c1 r1 Hl H0); [| | | |exact Hr|exact Ea].
    + intros I. cbn [app] in Hnd. apply NoDup_remove_2 in Hnd. apply Hnd, in_or_app. auto.
    + intros i [->| ->]; apply Hi; [left|right]; apply in_or_app; right; left; reflexivity.
    + intros i ->. apply (Ho' q i (s ++ l2)). reflexivity.
    + intros i I. apply in_split in I as (l1 & l3 & ->). apply in_or_app. left. apply (Ho' l1 i (l3 ++ (a :: s) ++ l2)). rewrite <- !app_assoc. reflexivity.
Qed.
Lemma race_prefix n lim c l1 l2 c' r' : (lim <= n)%nat -> ready n lim (c_ev c) -> valid_schedule lim (l1 ++ l2) -> do_acts ev l1 (c, []) = Some (c', r') -> rinv n lim (c_ev c) l1 (c_ev c').
Proof.
  intros Hl H0 Hv H. pose proof (valid_ordered _ _ Hv) as [Ho Hr]. apply (race_acts n lim (c_ev c) l1 Hl H0 [] c [] c' r' l2) in H; [exact H|exact Ho| |].
  - intros i [I|I]; [|apply Hr; exact I]. destruct Hv as [Hc _]. destruct (Nat.lt_ge_cases i lim) as [|Hi]; [assumption|]. exfalso.
    cbn [app] in I. specialize (Hc (Calc i)). cbv beta iota in Hc. destruct (Nat.ltb_spec i lim); [lia|]. eapply count_occ_In in I. erewrite Hc in I. lia.
  - constructor; try reflexivity; try apply H0. intros i [].
Qed.
Lemma race_full n lim c s c' r' : (lim <= n)%nat -> ready n lim (c_ev c) -> valid_schedule lim s -> do_acts ev s (c, []) = Some (c', r') ->
  pwf n (c_ev c') /\ (forall i, (i < lim)%nat -> tag (c_ev c') i = Some (CArr (p_cur (c_ev c')))) /\ p_order (c_ev c') = p_order (c_ev c).
Proof.
  intros Hl H0 Hv H. pose proof (valid_ordered _ _ Hv) as [_ Hr]. destruct (race_prefix n lim c s [] c' r' Hl H0 ltac:(rewrite app_nil_r; exact Hv) H) as [W C O A T D].
  split; [exact W|]. split; [|exact O]. intros i Hi. rewrite (D i) by (apply Hr, Hi). rewrite C. rewrite in_dec_true; [reflexivity|].
  apply Hr in Hi. apply in_split in Hi as (l1 & l2 & ->). destruct Hv as [_ Hv]. apply in_or_app. left. apply (Hv l1 i l2 eq_refl).
Qed.

(** Sorting moves the functions. *)
Lemma swap_tag n p i j p' : pwf n p -> par_swap p i j = Some p' -> pwf n p' /\ p_cur p' = p_cur p /\ p_arrs p' = p_arrs p /\
  forall k, at_pos p' k = at_pos p (if (k =? i)%nat then j else if (k =? j)%nat then i else k).
Proof.
  intros W. unfold par_swap. destruct (swap_at i j (p_order p)) as [o|] eqn:Eo; [|discriminate]. cbn [option_map]. intros [= <-]. cbn [p_cur p_arrs].
  destruct (swap_at_nth i j _ _ Eo) as (O1 & O2 & O3). rewrite (pw_len _ _ W) in *.
  assert (Hat : forall k, at_pos (Par (p_funs p) o (p_arrs p) (p_cur p)) k = at_pos p (if (k =? i)%nat then j else if (k =? j)%nat then i else k)).
  { intros k. unfold at_pos. cbn [p_order p_funs]. rewrite O3. reflexivity. }
  split; [|auto]. constructor; cbn [p_order p_cur p_arrs]; try apply W.
  - apply (Permutation_NoDup (Permutation_sym (swap_at_perm _ _ _ _ Eo))), W.
  - rewrite (swap_at_length _ _ _ _ Eo). apply W.
  - intros k Hk. rewrite Hat. apply W. destruct (k =? i)%nat; [lia|destruct (k =? j)%nat; lia].
Qed.
Definition moved (n : nat) (c c' : core par) : Prop :=
  pwf n (c_ev c') /\ p_cur (c_ev c') = p_cur (c_ev c) /\ length (c_fits c') = length (c_fits c) /\
  forall i, (i < n)%nat -> exists k, (k < n)%nat /\ tag (c_ev c') i = tag (c_ev c) k /\ nth i (c_fits c') f0 = nth k (c_fits c) f0.
Lemma swaps_moved n sw : forall c c', pwf n (c_ev c) -> do_swaps ev sw c = Some c' -> moved n c c'.
Proof.
  induction sw as [|[i j] sw IH]; intros c c' W; cbn [do_swaps].
  - intros [= <-]. split; [exact W|]. split; [reflexivity|]. split; [reflexivity|]. intros i Hi. exists i. auto.
  - destruct (swap_members ev c (i, j)) as [c1|] eqn:E1; [|discriminate]. unfold swap_members in E1.
    destruct (swap_at i j (c_fits c)) as [f|] eqn:Ef; [|discriminate]. destruct (swap_at i j (c_pop c)) as [p|] eqn:Ep; [|discriminate].
    destruct (ev_swap ev (c_ev c) i j) as [e|] eqn:Ee; [|discriminate]. injection E1 as <-. intros H.
    destruct (swap_tag n _ i j _ W Ee) as (W1 & P1 & P2 & P3). apply IH in H as (W2 & Q1 & Q2 & Q3); [|exact W1]. cbn [c_ev c_fits] in *.
    assert (Hij : (i < n)%nat /\ (j < n)%nat).
    { cbn [parallel ev_swap] in Ee. unfold par_swap in Ee. destruct (swap_at i j (p_order (c_ev c))) as [o|] eqn:Eo; [|discriminate]. destruct (swap_at_nth i j _ _ Eo) as (O1 & O2 & _). rewrite (pw_len _ _ W) in *. auto. }
    destruct (swap_at_nth i j _ _ Ef) as (F1 & F2 & F3).
    split; [exact W2|]. split; [congruence|]. split; [rewrite Q2; apply (swap_at_length _ _ _ _ Ef)|]. intros k Hk. destruct (Q3 k Hk) as (k' & Hk' & T1 & T2).
    exists (if (k' =? i)%nat then j else if (k' =? j)%nat then i else k'). split; [destruct (k' =? i)%nat; [lia|destruct (k' =? j)%nat; lia]|].
    split; [rewrite T1; unfold tag; rewrite P3; reflexivity|]. rewrite T2. apply nth_of_error, F3.
Qed.
Lemma update_moved n sw c c' : pwf n (c_ev c) -> update_fitnesses ev sw c = Some c' -> moved n c c'.
Proof.
  intros W H. unfold update_fitnesses in H. destruct (do_swaps ev sw c) as [c1|] eqn:E1; [|discriminate]. apply (swaps_moved n) in E1; [|exact W].
  unfold take_best in H. destruct (nth_error (c_pop c1) 0); [|discriminate]. destruct (nth_error (c_fits c1) 0); [|discriminate]. destruct (buf_set _ _ _); [|discriminate].
  cbn [option_map] in H. injection H as <-. exact E1.
Qed.

(** simple *)
Lemma new_parallel_wf n pow2 : pwf n (new_parallel n pow2) /\ forall i, (i < n)%nat -> tag (new_parallel n pow2) i = Some CInit.
Proof.
  assert (A : forall i, (i < n)%nat -> at_pos (new_parallel n pow2) i = Some (i, new_tfun)).
  { intros i Hi. unfold at_pos, new_parallel. cbn [p_order p_funs]. rewrite (nth_error_nth' _ 0%nat) by (rewrite seq_length; exact Hi). rewrite seq_nth by exact Hi.
    cbn [plus]. rewrite (nth_error_repeat new_tfun Hi). reflexivity. }
  split; [|intros i Hi; unfold tag; rewrite (A i Hi); reflexivity].
  constructor; [apply seq_NoDup|apply seq_length|cbn; lia|reflexivity|]. intros i Hi. rewrite (A i Hi). eauto.
Qed.
Lemma init_ev groups (e : par) c : init_core groups e = Some c -> c_ev c = e.
Proof. unfold init_core. destruct groups; [discriminate|]. intros [= <-]. reflexivity. Qed.
Lemma steps_ready cutoff n pow2 c : simple_steps im srt cutoff n pow2 c -> ready n n (c_ev c).
Proof.
  induction 1 as [groups s sw c r L Hv E|c mu s sw c' r _ IH Hv E].
  - unfold new_simple in E. destruct (init_core groups _) as [c1|] eqn:E1; [|discriminate]. apply init_ev in E1. unfold simple_calc in E. destruct (_ =? 0)%nat; [discriminate|].
    destruct (do_acts ev s (c1, [])) as [[c2 r2]|] eqn:E2; [|discriminate]. destruct (update_fitnesses ev sw c2) as [c3|] eqn:E3; [|discriminate]. injection E as <- <-.
    destruct (new_parallel_wf n pow2) as [W T]. destruct (race_full n n c1 s c2 r2 (le_n n)) as (W2 & T2 & _); [split; rewrite E1; auto|exact Hv|exact E2|].
    destruct (update_moved n sw c2 c3 W2 E3) as (W3 & C3 & _ & T3). split; [exact W3|]. intros i Hi. destruct (T3 i Hi) as (k & Hk & T4 & _). right. rewrite T4, C3. apply T2, Hk.
  - unfold simple_step in E. destruct (new_generation ev mu cutoff _ c) as [c1|] eqn:E1; [|discriminate]. apply (generation_same n) in E1 as [E1 _]. unfold simple_calc in E. destruct (_ =? 0)%nat; [discriminate|].
    destruct (do_acts ev s (c1, [])) as [[c2 r2]|] eqn:E2; [|discriminate]. destruct (update_fitnesses ev sw c2) as [c3|] eqn:E3; [|discriminate]. injection E as <- <-.
    destruct IH as [W T]. destruct (E1 W) as (W1 & C1 & A1 & O1 & T1).
    destruct (race_full n n c1 s c2 r2 (le_n n)) as (W2 & T2 & _); [split; [exact W1|intros i Hi; rewrite (T1 i Hi), C1; apply T, Hi]|exact Hv|exact E2|].
    destruct (update_moved n sw c2 c3 W2 E3) as (W3 & C3 & _ & T3). split; [exact W3|]. intros i Hi. destruct (T3 i Hi) as (k & Hk & T4 & _). right.
    change (tag (c_ev (next_gen c3)) i) with (tag (c_ev c3) i). change (p_cur (c_ev (next_gen c3))) with (p_cur (c_ev c3)). rewrite T4, C3. apply T2, Hk.
Qed.

(** The generation a worker's calculation belongs to. *)
Lemma rinv_seen n lim p0 q p j : (lim <= n)%nat -> ready n lim p0 -> rinv n lim p0 q p -> (j < lim)%nat -> ~ In (Calc j) q ->
  cache_seen p j = cache_seen p0 j /\ reads_array p j = reads_array p0 j /\ (In Prep q -> reads_array p j <> Some (p_cur p)).
Proof.
  intros Hl [W0 T0] [W C O A T D] Hj N. specialize (T j ltac:(lia) N). pose proof (pw_cur _ _ W0) as C0. unfold cache_seen, reads_array. unfold tag in T, T0.
  destruct (T0 j Hj) as [H|H]; rewrite <- T in H; destruct (at_pos p j) as [[id f]|]; destruct (at_pos p0 j) as [[id0 g]|]; try discriminate; cbn [option_map snd] in *; injection T as T; rewrite <- T;
    injection H as H; rewrite H; cbn [cache_view].
  - repeat split. discriminate.
  - split; [rewrite A; reflexivity|]. split; [reflexivity|]. intros I. rewrite C, in_dec_true by exact I. intros E. assert (p_cur p0 = 1 - p_cur p0) by congruence. lia.
Qed.

(** modifiedGenetic: only a member of fitness 0 may read the other array. *)
Definition gready (n : nat) (c : core par) : Prop :=
  pwf n (c_ev c) /\ length (c_fits c) = n /\
  forall i, i < n -> (tag (c_ev c) i = Some CInit \/ tag (c_ev c) i = Some (CArr (p_cur (c_ev c)))) \/ nth i (c_fits c) f0 = f0.
Lemma put_nth {A} i (x : A) l l' d : put i x l = Some l' -> length l' = length l /\ i < length l /\ forall k, nth k l' d = if k =? i then x else nth k l d.
Proof.
  unfold put. destruct (Nat.ltb_spec i (length l)) as [H|H]; [|discriminate]. intros [= <-]. split; [apply set_nth_length|]. split; [exact H|].
  intros k. destruct (Nat.eqb_spec k i) as [->|N].
  - apply nth_error_nth. rewrite nth_error_set_nth, Nat.eqb_refl. destruct (Nat.ltb_spec i (length l)); [reflexivity|lia].
  - apply nth_of_error. rewrite nth_error_set_nth. destruct (Nat.eqb_spec i k); [congruence|reflexivity].
Qed.
Lemma combine_one_race n cutoff i g r g' r' : i < n -> pwf n (c_ev (g_core g)) -> combine_one ev cutoff i (g, r) = Some (g', r') ->
  pwf n (c_ev (g_core g')) /\ p_cur (c_ev (g_core g')) = p_cur (c_ev (g_core g)) /\ length (c_fits (g_core g')) = length (c_fits (g_core g)) /\
  (tag (c_ev (g_core g')) i = Some (CArr (p_cur (c_ev (g_core g')))) \/ nth i (c_fits (g_core g')) f0 = f0) /\
  forall k, k < n -> k <> i -> tag (c_ev (g_core g')) k = tag (c_ev (g_core g)) k /\ nth k (c_fits (g_core g')) f0 = nth k (c_fits (g_core g)) f0.
Proof.
  intros Hi W. unfold combine_one. set (c := g_core g) in *. destruct (put i [] (c_muts c)) as [m0|]; [|discriminate]. destruct (get_base cutoff i) as [b|]; [|discriminate].
  destruct (nth_error (c_pop c) i) as [a|]; [|discriminate]. destruct (nth_error (g_ben g) b) as [[|m bm]|]; [| |discriminate].
  - destruct (put i f0 (c_fits c)) as [f|] eqn:Ef; [|discriminate]. cbn [option_map]. intros H; inversion H; subst g' r'; clear H. cbn [g_core with_muts with_fits c_ev c_fits].
    destruct (put_nth i f0 _ _ f0 Ef) as (F1 & F2 & F3). split; [exact W|]. split; [reflexivity|]. split; [exact F1|]. split; [right; rewrite F3, Nat.eqb_refl; reflexivity|].
    intros k Hk N. split; [reflexivity|]. rewrite F3. destruct (Nat.eqb_spec k i); [contradiction|reflexivity].
  - destruct (nth_error (c_pop c) b) as [ab|]; [|discriminate]. destruct (ev_base ev (c_ev c) i b) as [e1|] eqn:E1; [|discriminate].
    destruct (buf_set (c_store c) a ab) as [st1|]; [|discriminate]. destruct (apply_muts _ _) as [pts|]; [|discriminate].
    destruct (ev_calc ev e1 i pts _) as [[e2 f]|] eqn:E2; [|discriminate]. destruct (put i f (c_fits c)) as [fs|] eqn:Ef; [|discriminate].
    destruct (ev_update ev e2 i) as [e3|] eqn:E3; [|discriminate]. intros H; inversion H; subst g' r'; clear H. cbn [g_core with_ev with_muts with_fits with_store c_ev c_fits].
    destruct (base_tag n _ _ _ _ E1 W) as (W1 & A1 & A2 & A3 & A4). destruct (calc_tag n _ i _ _ _ _ W1 Hi E2) as (W2 & B1 & B2 & B3 & B4).
    destruct (update_tag n _ i _ W2 Hi E3) as (W3 & C1 & C2 & C3 & C4 & C5). destruct (put_nth i f _ _ f0 Ef) as (F1 & F2 & F3).
    split; [exact W3|]. split; [congruence|]. split; [exact F1|]. split; [left; congruence|]. intros k Hk N. split.
    + rewrite C5, B4, A4 by assumption. reflexivity.
    + rewrite F3. destruct (Nat.eqb_spec k i); [contradiction|reflexivity].
Qed.
Lemma combine_race n cutoff m : forall i g r g' r', i + m <= n -> pwf n (c_ev (g_core g)) -> combine_muts ev cutoff m i (g, r) = Some (g', r') ->
  pwf n (c_ev (g_core g')) /\ p_cur (c_ev (g_core g')) = p_cur (c_ev (g_core g)) /\ length (c_fits (g_core g')) = length (c_fits (g_core g)) /\
  (forall k, i <= k < i + m -> tag (c_ev (g_core g')) k = Some (CArr (p_cur (c_ev (g_core g')))) \/ nth k (c_fits (g_core g')) f0 = f0) /\
  forall k, k < n -> k < i \/ i + m <= k -> tag (c_ev (g_core g')) k = tag (c_ev (g_core g)) k /\ nth k (c_fits (g_core g')) f0 = nth k (c_fits (g_core g)) f0.
Proof.
  induction m as [|m IH]; intros i g r g' r' Hm W; cbn [combine_muts].
  - intros H; inversion H; subst. split; [exact W|]. split; [reflexivity|]. split; [reflexivity|]. split; [intros k Hk; lia|auto].
  - destruct (combine_one ev cutoff i (g, r)) as [[g1 r1]|] eqn:E; [|discriminate]. intros H. apply (combine_one_race n) in E as (W1 & A1 & A2 & A3 & A4); [|lia|exact W].
    apply IH in H as (W2 & B1 & B2 & B3 & B4); [|lia|exact W1]. split; [exact W2|]. split; [congruence|]. split; [congruence|]. split.
    + intros k Hk. destruct (Nat.eq_dec k i) as [->|N]; [|apply B3; lia]. destruct (B4 i) as [B5 B6]; [lia|lia|]. rewrite B5, B6, B1. exact A3.
    + intros k Hk Ho. destruct (B4 k) as [B5 B6]; [lia|lia|]. destruct (A4 k) as [A5 A6]; [lia|lia|]. split; congruence.
Qed.
Lemma recv_fits s : forall c r c' r', do_acts ev s (c, r) = Some (c', r') -> length (c_fits c') = length (c_fits c).
Proof.
  induction s as [|a s IH]; intros c r c' r'; cbn [do_acts]; [intros H; inversion H; reflexivity|]. destruct (do_act ev (c, r) a) as [[c1 r1]|] eqn:E; [|discriminate]. intros H. apply IH in H. rewrite H.
  unfold do_act in E. destruct a as [|i|i].
  - destruct (ev_prepare ev (c_ev c)); [|discriminate]. inversion E; reflexivity.
  - destruct (nth_error (c_pop c) i); [|discriminate]. destruct (nth_error (c_muts c) i); [|discriminate]. destruct (ev_calc ev (c_ev c) i _ _) as [[e f]|]; [|discriminate]. inversion E; reflexivity.
  - destruct (result r i); [|discriminate]. destruct (put i _ (c_fits c)) as [fs|] eqn:Ef; [|discriminate]. destruct (ev_update ev (c_ev c) i); [|discriminate]. inversion E; subst. cbn [with_ev with_fits c_fits]. apply (put_nth _ _ _ _ f0 Ef).
Qed.
Lemma moved_gready n c c' : gready n c -> moved n c c' -> gready n c'.
Proof.
  intros (W & L & T) (W' & C & L' & T'). split; [exact W'|]. split; [congruence|]. intros i Hi. destruct (T' i Hi) as (k & Hk & A & B). rewrite A, B, C. apply T, Hk.
Qed.
Lemma g_calc_race n cutoff s g g' r' : cutoff <= n -> ready n (n - cutoff) (c_ev (g_core g)) -> valid_schedule (n - cutoff) s -> g_calc ev cutoff s g = Some (g', r') ->
  pwf n (c_ev (g_core g')) /\ length (c_fits (g_core g')) = length (c_fits (g_core g)) /\
  (forall i, i < n - cutoff -> tag (c_ev (g_core g')) i = Some (CArr (p_cur (c_ev (g_core g'))))) /\
  rinv n (n - cutoff) (c_ev (g_core g)) s (c_ev (g_core g')).
Proof.
  intros Hc R Hv. unfold g_calc. destruct (_ <=? cutoff); [discriminate|]. intros H. apply g_acts_core in H.
  destruct (race_full n (n - cutoff) _ s _ _ ltac:(lia) R Hv H) as (W & T & _). split; [exact W|]. split; [eapply recv_fits, H|]. split; [exact T|].
  apply (race_prefix n (n - cutoff) (g_core g) s [] (g_core g') r'); [lia|exact R|rewrite app_nil_r; exact Hv|exact H].
Qed.
Lemma update_gready n c c' sw : gready n c -> update_fitnesses ev sw c = Some c' -> gready n c'.
Proof. intros G H. eapply moved_gready; [exact G|]. apply (update_moved n sw); [apply G|exact H]. Qed.
Lemma new_genetic_gready n cutoff groups pow2 s sw g r : cutoff <= n -> length groups = n -> valid_schedule (n - cutoff) s ->
  new_genetic ev cutoff groups (new_parallel n pow2) s sw = Some (g, r) -> gready n (g_core g).
Proof.
  intros Hc L Hv. unfold new_genetic. destruct (init_core groups _) as [c1|] eqn:E1; [|discriminate]. destruct (g_calc ev cutoff s _) as [[g2 r2]|] eqn:E2; [|discriminate].
  destruct (update_fitnesses ev sw (g_core g2)) as [c3|] eqn:E3; [|discriminate]. cbn [option_map]. intros H; inversion H; subst g r2; clear H. cbn [g_core].
  pose proof (init_ev _ _ _ E1) as Ee. destruct (new_parallel_wf n pow2) as [W T].
  assert (Lf : length (c_fits c1) = n /\ forall i, nth i (c_fits c1) f0 = f0).
  { unfold init_core in E1. destruct groups as [|g0 gs]; [discriminate|]. apply (f_equal (option_map c_fits)) in E1. cbn [option_map c_fits] in E1. assert (E2' : c_fits c1 = repeat f0 (length (g0 :: gs))) by congruence.
    rewrite E2', repeat_length. split; [exact L|]. intros i. apply nth_repeat. }
  destruct (g_calc_race n cutoff s (MGen c1 (repeat [] cutoff)) g2 r Hc) as (W2 & L2 & T2 & [_ C2 _ _ T3 _]);
    [split; cbn [g_core]; rewrite Ee; [exact W|intros i Hi; left; apply T; lia]|exact Hv|exact E2|].
  cbn [g_core] in *. eapply update_gready; [|exact E3]. split; [exact W2|]. split; [rewrite L2; apply Lf|]. intros i Hi.
  destruct (Nat.lt_ge_cases i (n - cutoff)) as [Hl|Hl]; [left; right; apply T2, Hl|]. left. left. rewrite T3; [rewrite Ee; apply T, Hi|exact Hi|].
  intros I. eapply count_occ_In in I. destruct Hv as [Hv _]. specialize (Hv (Calc i)). cbv beta iota in Hv. destruct (Nat.ltb_spec i (n - cutoff)); [lia|]. erewrite Hv in I. lia.
Qed.
Lemma genetic_step_gready n cutoff mu s sw g g' r : cutoff <= n -> length (c_pop (g_core g)) = n -> valid_schedule (n - cutoff) s -> length (c_fits (g_core g)) = n ->
  ready n (n - cutoff) (c_ev (g_core g)) -> genetic_step ev cutoff mu s sw g = Some (g', r) -> gready n (g_core g').
Proof.
  intros Hc L Hv Lf R. unfold genetic_step. rewrite L. destruct (new_generation ev mu cutoff (n - cutoff) (g_core g)) as [c1|] eqn:E1; [|discriminate].
  destruct (g_calc ev cutoff s _) as [[g2 r2]|] eqn:E2; [|discriminate]. destruct (combine_muts ev cutoff cutoff (n - cutoff) (g2, r2)) as [[g3 r3]|] eqn:E3; [|discriminate].
  destruct (update_fitnesses ev sw (g_core g3)) as [c4|] eqn:E4; [|discriminate]. cbn [option_map]. intros H; inversion H; subst g' r3; clear H. cbn [g_core].
  assert (G : gready n c4); [|exact G]. destruct R as [W T]. apply (generation_same n) in E1 as [E1 Lf1]. destruct (E1 W) as (W1 & C1 & A1 & O1 & T1).
  destruct (g_calc_race n cutoff s (MGen c1 (map (fun _ => []) (g_ben g))) g2 r2 Hc) as (W2 & L2 & T2 & _);
    [split; cbn [g_core]; [exact W1|intros i Hi; rewrite C1, T1 by lia; apply T, Hi]|exact Hv|exact E2|].
  cbn [g_core] in *. apply (combine_race n) in E3 as (W3 & B1 & B2 & B3 & B4); [|lia|exact W2]. eapply update_gready; [|exact E4]. split; [exact W3|].
  split; [rewrite B2, L2, Lf1; exact Lf|]. intros i Hi. destruct (Nat.lt_ge_cases i (n - cutoff)) as [Hl|Hl].
  - left. right. destruct (B4 i Hi) as [-> _]; [lia|]. rewrite B1. apply T2, Hl.
  - destruct (B3 i) as [H|H]; [lia|left; right; exact H|right; exact H].
Qed.
Lemma gready_ready n cutoff c : gready n c -> sorted (c_fits c) -> n - cutoff <= length (filter (fun f => flt f0 f) (c_fits c)) -> ready n (n - cutoff) (c_ev c).
Proof.
  intros (W & L & T) S H. split; [exact W|]. intros i Hi. destruct (T i) as [A|A]; [lia|exact A|]. exfalso. apply (top_positive_all (n - cutoff) (c_fits c) i S H Hi A).
Qed.
End Race.
