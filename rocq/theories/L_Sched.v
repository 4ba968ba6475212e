(** The calculations of one generation in any order: for an evaluator that keeps one object per
    function, what calculateFitnesses computes does not depend on the schedule. *)
From Coq Require Import ZArith List Bool Arith Lia Permutation.
From Verif Require Import GoNum M_Norm M_Slice M_Algo S_Algo M_Geom M_Delaunay M_Fitness S_Fitness L_Slice L_PMap L_Algo L_Algo2 L_Hold L_Fwd L_Sim S_MemRun S_Sched L_MemRun2.
Import ListNotations.
Local Open Scope nat_scope.

Lemma nth_error_ext {A} (l m : list A) : (forall i, nth_error l i = nth_error m i) -> l = m.
Proof.
  revert m. induction l as [|a l IH]; intros [|b m] H; [reflexivity|discriminate (H 0)|discriminate (H 0)|]. f_equal; [injection (H 0); auto|]. apply IH. intros i. exact (H (S i)).
Qed.

Section Sched.
Context {T : Type} (next : option T -> option T -> list npoint -> list mut -> option T) (fit : T -> option f64).
Hypothesis Hkeep : forall d pts log, next (Some d) None pts log = Some d.
Notation ev := (keep_ev next fit).

(** Every pending base is a function that has an object and no pending base. *)
Definition calm (e : keeper T) : Prop := NoDup (b_order e) /\ forall id tri b, nth_error (b_funs e) id = Some (tri, Some b) -> exists d, nth_error (b_funs e) b = Some (Some d, None).
(** Pending bases belong to positions below [lim]. *)
Definition below (lim : nat) (e : keeper T) : Prop := forall id tri b, nth_error (b_funs e) id = Some (tri, Some b) -> exists i, i < lim /\ nth_error (b_order e) i = Some id.
(** No base is pending. *)
Definition at_rest (e : keeper T) : Prop := NoDup (b_order e) /\ forall id tri b, nth_error (b_funs e) id = Some (tri, b) -> b = None.
Lemma rest_calm e : at_rest e -> calm e /\ below 0 e.
Proof. intros [N H]. split; [split; [exact N|]|]; intros id tri b E; apply H in E; discriminate. Qed.

Definition from_of (e : keeper T) (base : option nat) : option T := match base with None => None | Some b => match nth_error (b_funs e) b with None => None | Some g => fst g end end.
(** What the calculation of position [i] gives in the state [c] before any of them. *)
Definition outcome (c : core (keeper T)) (i : nat) : option (nat * T * f64) :=
  match nth_error (c_pop c) i, nth_error (c_muts c) i, b_at (c_ev c) i with
  | Some a, Some ms, Some (id, (tri, base)) =>
      match next tri (from_of (c_ev c) base) (buf c a) ms with
      | None => None
      | Some d => option_map (fun f => (id, d, f)) (fit d)
      end
  | _, _, _ => None
  end.
Record done (c0 : core (keeper T)) (q : list act) (c : core (keeper T)) (r : results) : Prop := {
  dn_same : c_store c = c_store c0 /\ c_pop c = c_pop c0 /\ c_newpop c = c_newpop c0 /\ c_best c = c_best c0 /\ c_muts c = c_muts c0 /\ c_bestfit c = c_bestfit c0 /\ c_gen c = c_gen c0;
  dn_order : b_order (c_ev c) = b_order (c_ev c0);
  dn_len : length (c_fits c) = length (c_fits c0);
  dn_calc : forall i, In (Calc i) q -> exists id d f, outcome c0 i = Some (id, d, f) /\ nth_error (b_funs (c_ev c)) id = Some (Some d, None) /\ result r i = Some f;
  dn_other : forall id, (forall i, In (Calc i) q -> nth_error (b_order (c_ev c0)) i <> Some id) -> nth_error (b_funs (c_ev c)) id = nth_error (b_funs (c_ev c0)) id;
  dn_recv : forall i, In (Recv i) q -> exists id d f, outcome c0 i = Some (id, d, f) /\ nth_error (c_fits c) i = Some f;
  dn_fits : forall i, ~ In (Recv i) q -> nth_error (c_fits c) i = nth_error (c_fits c0) i;
  dn_res : forall i f, In (i, f) r -> exists id d, outcome c0 i = Some (id, d, f);
  dn_keys : forall i, In i (map fst r) -> In (Calc i) q;
  dn_nodup : NoDup (map fst r) }.
Lemma done_start c0 : done c0 [] c0 [].
Proof. constructor; cbn [In map]; try (intros; exfalso; assumption); try reflexivity; try (intros; reflexivity); try tauto; first [repeat split; fail|constructor]. Qed.

Lemma b_at_nth (e : keeper T) i id x : b_at e i = Some (id, x) <-> nth_error (b_order e) i = Some id /\ nth_error (b_funs e) id = Some x.
Proof. unfold b_at. destruct (nth_error (b_order e) i) as [k|]; [|split; [discriminate|intros []; discriminate]]. destruct (nth_error (b_funs e) k) eqn:E; cbn [option_map]; split; [intros [= <- <-]; auto|intros [[= ->] H]; congruence|discriminate|intros [[= ->] H]; congruence]. Qed.
Lemma outcome_order c i id d f : outcome c i = Some (id, d, f) -> nth_error (b_order (c_ev c)) i = Some id.
Proof.
  unfold outcome. destruct (nth_error (c_pop c) i), (nth_error (c_muts c) i); try discriminate. destruct (b_at (c_ev c) i) as [[k [tri base]]|] eqn:E; [|discriminate].
  destruct (next _ _ _ _) as [d'|]; [|discriminate]. destruct (fit d'); [|discriminate]. cbn. intros [= <- _ _]. apply b_at_nth in E. apply E.
Qed.
Lemma nodup_pos {A} (l : list A) i j x : NoDup l -> nth_error l i = Some x -> nth_error l j = Some x -> i = j.
Proof. intros N E1 E2. apply (proj1 (NoDup_nth_error l) N); [apply nth_error_Some; congruence|congruence]. Qed.

(** Nobody else writes the function of a position that has not been calculated, and what it
    reads from its base does not change. *)
Lemma pending c0 q c r i : calm (c_ev c0) -> done c0 q c r -> ~ In (Calc i) q ->
  b_at (c_ev c) i = b_at (c_ev c0) i /\ forall id tri base, b_at (c_ev c0) i = Some (id, (tri, base)) -> from_of (c_ev c) base = from_of (c_ev c0) base /\ (forall b, base = Some b -> b <> id).
Proof.
  intros [Nd Cm] D Ni. split.
  - unfold b_at. rewrite (dn_order _ _ _ _ D). destruct (nth_error (b_order (c_ev c0)) i) as [id|] eqn:E; [|reflexivity]. rewrite (dn_other _ _ _ _ D); [reflexivity|].
    intros j Hj Ej. apply Ni. rewrite (nodup_pos _ i j id Nd E Ej). exact Hj.
  - intros id tri base E. apply b_at_nth in E as [E1 E2]. destruct base as [b|]; [|split; [reflexivity|discriminate]]. destruct (Cm id tri b E2) as (d & Ed). split; [|intros b' [= <-] ->; congruence].
    cbn [from_of]. rewrite Ed. cbn [fst]. destruct (in_dec Nat.eq_dec b (map (fun k => match k with Calc j => nth j (b_order (c_ev c0)) (S b) | _ => S b end) q)) as [I|I].
    + apply in_map_iff in I as (a & Ea & Ia). destruct a as [|j|j]; try lia. destruct (dn_calc _ _ _ _ D j Ia) as (jd & d' & f & O & F & _). pose proof (outcome_order _ _ _ _ _ O) as Oj.
      rewrite (nth_error_nth _ _ _ Oj) in Ea. subst jd. rewrite F. cbn [fst]. unfold outcome in O. destruct (nth_error (c_pop c0) j); [|discriminate]. destruct (nth_error (c_muts c0) j); [|discriminate].
      rewrite (proj2 (b_at_nth (c_ev c0) j b (Some d, None)) (conj Oj Ed)) in O. cbn [from_of] in O. rewrite Hkeep in O. destruct (fit d); [|discriminate]. cbn in O. congruence.
    + rewrite (dn_other _ _ _ _ D), Ed; [reflexivity|]. intros j Hj Ej. apply I. apply in_map_iff. exists (Calc j). split; [apply nth_error_nth, Ej|exact Hj].
Qed.

(** One event. *)
Lemma act_done c0 q c r a : calm (c_ev c0) -> done c0 q c r -> ~ In a q -> (forall i, a = Recv i -> In (Calc i) q) ->
  (forall c' r', do_act ev (c, r) a = Some (c', r') -> done c0 (q ++ [a]) c' r') /\
  ((forall i, a = Calc i -> outcome c0 i <> None) -> (forall i, a = Recv i -> i < length (c_fits c0)) -> exists c' r', do_act ev (c, r) a = Some (c', r')).
Proof.
  intros C D Nq Rq. destruct D as [(S1 & S2 & S3 & S4 & S5 & S6 & S7) Do Dl Dc Dt Dr Df Ds Dk Dn] eqn:ED. clear ED. rename D into D0.
  assert (D : done c0 q c r) by (constructor; auto 10). destruct a as [|i|i]; cbn [do_act].
  - cbn [keep_ev ev_prepare option_map]. split; [|eauto]. intros c' r' [= <- <-]. assert (X : forall b, In b (q ++ [Prep]) -> b <> Prep -> In b q) by (intros b H N; apply in_app_iff in H as [H|[H|[]]]; congruence).
    constructor; cbn [with_ev c_store c_pop c_newpop c_best c_muts c_bestfit c_gen c_ev c_fits]; auto 10.
    + intros i Hi. apply Dc, X; [exact Hi|discriminate].
    + intros id H. apply Dt. intros j Hj. apply H, in_app_iff. auto.
    + intros i Hi. apply Dr, X; [exact Hi|discriminate].
    + intros i Hi. apply Df. intros I. apply Hi, in_app_iff. auto.
    + intros i Hi. apply in_app_iff. left. apply Dk, Hi.
  - destruct (pending c0 q c r i C D Nq) as [Pa Pf]. rewrite S2, S5. unfold outcome.
    destruct (nth_error (c_pop c0) i) as [a|] eqn:Ep; [|split; [discriminate|intros H; exfalso; apply (H i eq_refl); rewrite Ep; reflexivity]]. destruct (nth_error (c_muts c0) i) as [ms|] eqn:Em; [|split; [discriminate|intros H; exfalso; apply (H i eq_refl); rewrite Ep, Em; reflexivity]].
    cbn [keep_ev ev_calc]. rewrite Pa. destruct (b_at (c_ev c0) i) as [[id [tri base]]|] eqn:Ea; [|split; [discriminate|intros H; exfalso; apply (H i eq_refl); rewrite Ep, Em, Ea; reflexivity]].
    destruct (Pf id tri base eq_refl) as [Ff Fb]. assert (Es : match base with Some b => b =? id | None => false end = false) by (destruct base as [b|]; [apply Nat.eqb_neq, Fb; reflexivity|reflexivity]). rewrite Es. cbv zeta. fold (from_of (c_ev c) base). rewrite Ff.
    assert (Eb : buf c a = buf c0 a) by (unfold buf; rewrite S1; reflexivity). rewrite Eb. destruct (next tri (from_of (c_ev c0) base) (buf c0 a) ms) as [d|] eqn:En.
    2:{ split; [discriminate|]. intros H. exfalso. apply (H i eq_refl). rewrite Ep, Em, Ea, En. reflexivity. }
    destruct (fit d) as [f|] eqn:Efi; cbn [option_map fst snd]. 2:{ split; [discriminate|]. intros H. exfalso. apply (H i eq_refl). rewrite Ep, Em, Ea, En, Efi. reflexivity. }
    split; [|eauto]. intros c' r' [= <- <-]. assert (O : outcome c0 i = Some (id, d, f)) by (unfold outcome; rewrite Ep, Em, Ea, En, Efi; reflexivity). pose proof Ea as Ea'. apply b_at_nth in Ea' as [Ei Eid]. assert (Li : id < length (b_funs (c_ev c))).
    { apply nth_error_Some. pose proof Pa as Pb. apply b_at_nth in Pb as [_ H]. congruence. }
    constructor; cbn [with_ev c_store c_pop c_newpop c_best c_muts c_bestfit c_gen c_ev c_fits b_order b_funs]; auto 10.
    + intros j Hj. destruct (Nat.eq_dec j i) as [->|N].
      * exists id, d, f. split; [exact O|]. rewrite nth_error_set_nth, Nat.eqb_refl. apply Nat.ltb_lt in Li. rewrite Li. split; [reflexivity|]. unfold result. cbn [find fst]. rewrite Nat.eqb_refl. reflexivity.
      * apply in_app_iff in Hj as [Hj|[Hj|[]]]; [|congruence]. destruct (Dc j Hj) as (jd & d' & f' & O' & F' & R'). exists jd, d', f'. split; [exact O'|]. rewrite nth_error_set_nth. pose proof (outcome_order _ _ _ _ _ O') as Oj.
        destruct (Nat.eqb_spec id jd) as [->|N2]; [exfalso; apply N; apply (nodup_pos _ _ _ _ (proj1 C) Oj Ei)|]. cbn [andb]. split; [exact F'|]. unfold result in *. cbn [find fst]. destruct (Nat.eqb_spec i j); [congruence|exact R'].
    + intros k Hk. rewrite nth_error_set_nth. destruct (Nat.eqb_spec id k) as [->|N]; [exfalso; apply (Hk i); [apply in_app_iff; right; left; reflexivity|exact Ei]|]. cbn [andb]. apply Dt. intros j Hj. apply Hk, in_app_iff. auto.
    + intros j Hj. apply in_app_iff in Hj as [Hj|[Hj|[]]]; [auto|discriminate].
    + intros j Hj. apply Df. intros I. apply Hj, in_app_iff. auto.
    + intros j f' [E|H]; [injection E as <- <-; eauto|eauto].
    + intros j [E|H]; [cbn in E; subst j; apply in_app_iff; right; left; reflexivity|apply in_app_iff; left; apply Dk, H].
    + cbn [map fst]. constructor; [|exact Dn]. intros I. apply Nq, Dk, I.
  - destruct (Dc i (Rq i eq_refl)) as (id & d & f & O & F & R). rewrite R. cbn [keep_ev ev_update]. pose proof (outcome_order _ _ _ _ _ O) as Oi. rewrite <- Do in Oi. rewrite (proj2 (b_at_nth _ _ _ _) (conj Oi F)). cbn [option_map]. split.
    + destruct (put i f (c_fits c)) as [fs|] eqn:Ep; [|discriminate]. intros c' r' [= <- <-]. apply put_inv in Ep as [Lp ->]. constructor; cbn [with_ev with_fits c_store c_pop c_newpop c_best c_muts c_bestfit c_gen c_ev c_fits]; auto 10.
      * rewrite set_nth_length. exact Dl.
      * intros j Hj. apply in_app_iff in Hj as [Hj|[Hj|[]]]; [auto|discriminate].
      * intros k Hk. apply Dt. intros j Hj. apply Hk, in_app_iff. auto.
      * intros j Hj. rewrite nth_error_set_nth. destruct (Nat.eqb_spec i j) as [->|N]; [exists id, d, f; split; [exact O|]; apply Nat.ltb_lt in Lp; rewrite Lp; reflexivity|]. cbn [andb]. apply Dr. apply in_app_iff in Hj as [Hj|[Hj|[]]]; [exact Hj|congruence].
      * intros j Hj. rewrite nth_error_set_nth. destruct (Nat.eqb_spec i j) as [->|N]; [exfalso; apply Hj, in_app_iff; right; left; reflexivity|]. cbn [andb]. apply Df. intros I. apply Hj, in_app_iff. auto.
      * intros j Hj. apply in_app_iff. left. apply Dk, Hj.
    + intros _ H. unfold put. rewrite Dl. specialize (H i eq_refl). apply Nat.ltb_lt in H. rewrite H. eauto.
Qed.

Lemma acts_done c0 s : calm (c_ev c0) -> forall q c r, NoDup (q ++ s) -> (forall l1 i l2, q ++ s = l1 ++ Recv i :: l2 -> In (Calc i) l1) -> done c0 q c r ->
  (forall c' r', do_acts ev s (c, r) = Some (c', r') -> done c0 (q ++ s) c' r') /\
  ((forall i, In (Calc i) s -> outcome c0 i <> None) -> (forall i, In (Recv i) s -> i < length (c_fits c0)) -> exists c' r', do_acts ev s (c, r) = Some (c', r')).
Proof.
  intros C. induction s as [|a s IH]; intros q c r Nd Or D; cbn [do_acts].
  - rewrite app_nil_r. split; [intros c' r' [= <- <-]; exact D|eauto].
  - assert (Na : ~ In a q) by (intros I; apply NoDup_remove_2 in Nd; apply Nd, in_app_iff; auto). destruct (act_done c0 q c r a C D Na) as [A1 A2]; [intros i ->; exact (Or q i s eq_refl)|].
    assert (Eq : q ++ a :: s = (q ++ [a]) ++ s) by (rewrite <- app_assoc; reflexivity). rewrite Eq in *. split.
    + destruct (do_act ev (c, r) a) as [[c1 r1]|] eqn:E; [|discriminate]. intros c' r' H. exact (proj1 (IH _ c1 r1 Nd Or (A1 _ _ eq_refl)) c' r' H).
    + intros H1 H2. destruct A2 as (c1 & r1 & E); [intros i ->; apply H1; left; reflexivity|intros i ->; apply H2; left; reflexivity|]. rewrite E. apply (proj2 (IH _ c1 r1 Nd Or (A1 _ _ E))); intros i Hi; [apply H1|apply H2]; right; exact Hi.
Qed.

Lemma schedule_facts lim s : valid_schedule lim s -> NoDup s /\ (forall l1 i l2, s = l1 ++ Recv i :: l2 -> In (Calc i) l1) /\
  (forall i, In (Calc i) s <-> i < lim) /\ (forall i, In (Recv i) s <-> i < lim).
Proof.
  intros [Hc Ho]. set (dec := fun x y : act => ltac:(decide equality; apply Nat.eq_dec) : {x = y} + {x <> y}) in Hc. split; [|split; [|split]].
  - apply (NoDup_count_occ dec). intros a. rewrite Hc. destruct a as [|i|i]; [lia|destruct (i <? lim); lia|destruct (i <? lim); lia].
  - intros l1 i l2 E. apply (Ho l1 i l2 E).
  - intros i. rewrite (count_occ_In dec), Hc. destruct (Nat.ltb_spec i lim); lia.
  - intros i. rewrite (count_occ_In dec), Hc. destruct (Nat.ltb_spec i lim); lia.
Qed.

Lemma done_same c0 q q' c r c' r' lim : (forall i, In (Calc i) q <-> i < lim) -> (forall i, In (Calc i) q' <-> i < lim) -> (forall i, In (Recv i) q <-> i < lim) -> (forall i, In (Recv i) q' <-> i < lim) ->
  done c0 q c r -> done c0 q' c' r' -> c' = c /\ Permutation r r'.
Proof.
  intros C1 C2 R1 R2 D D'. destruct (dn_same _ _ _ _ D) as (S1 & S2 & S3 & S4 & S5 & S6 & S7). destruct (dn_same _ _ _ _ D') as (T1 & T2 & T3 & T4 & T5 & T6 & T7). split.
  - destruct c as [st pop np b fi mu bf ge [fu od]], c' as [st' pop' np' b' fi' mu' bf' ge' [fu' od']]. cbn in *. f_equal; try congruence.
    + apply nth_error_ext. intros i. destruct (lt_dec i lim) as [H|H].
      * destruct (dn_recv _ _ _ _ D i (proj2 (R1 i) H)) as (? & ? & f & O & F). destruct (dn_recv _ _ _ _ D' i (proj2 (R2 i) H)) as (? & ? & f' & O' & F'). cbn in *. congruence.
      * pose proof (dn_fits _ _ _ _ D i ltac:(rewrite R1; exact H)) as F. pose proof (dn_fits _ _ _ _ D' i ltac:(rewrite R2; exact H)) as F'. cbn in *. congruence.
    + pose proof (dn_order _ _ _ _ D) as O1. pose proof (dn_order _ _ _ _ D') as O2. cbn in O1, O2. f_equal; [|congruence]. apply nth_error_ext. intros id. destruct (in_dec Nat.eq_dec id (firstn lim (b_order (c_ev c0)))) as [I|I].
      * apply In_nth_error in I as [i Hi]. assert (Li : i < lim). { assert (i < length (firstn lim (b_order (c_ev c0)))) by (apply nth_error_Some; congruence). rewrite firstn_length in H. lia. }
        assert (Ei : nth_error (b_order (c_ev c0)) i = Some id). { rewrite <- (firstn_skipn lim (b_order (c_ev c0))). rewrite nth_error_app1; [exact Hi|]. apply nth_error_Some. congruence. }
        destruct (dn_calc _ _ _ _ D i (proj2 (C1 i) Li)) as (k & d & f & O & F & _). destruct (dn_calc _ _ _ _ D' i (proj2 (C2 i) Li)) as (k' & d' & f' & O' & F' & _). pose proof (outcome_order _ _ _ _ _ O) as Ok. cbn in *. congruence.
      * assert (X : forall i, i < lim -> nth_error (b_order (c_ev c0)) i <> Some id). { intros i Li Ei. apply I. apply nth_error_In with i. assert (i < length (b_order (c_ev c0))) by (apply nth_error_Some; congruence).
          rewrite <- Ei. rewrite <- (firstn_skipn lim (b_order (c_ev c0))) at 2. rewrite nth_error_app1; [reflexivity|]. rewrite firstn_length. lia. }
        pose proof (dn_other _ _ _ _ D id ltac:(intros i Hi; apply X, C1, Hi)) as F. pose proof (dn_other _ _ _ _ D' id ltac:(intros i Hi; apply X, C2, Hi)) as F'. cbn in *. congruence.
  - apply NoDup_Permutation.
    + eapply NoDup_map_inv. apply (dn_nodup _ _ _ _ D).
    + eapply NoDup_map_inv. apply (dn_nodup _ _ _ _ D').
    + intros [i f]. assert (Z : forall q1 q2 c1 r1 c2 r2, (forall i, In (Calc i) q1 <-> i < lim) -> (forall i, In (Calc i) q2 <-> i < lim) -> done c0 q1 c1 r1 -> done c0 q2 c2 r2 -> In (i, f) r1 -> In (i, f) r2).
      { intros q1 q2 c1 r1 c2 r2 X1 X2 D1 D2 I. destruct (dn_res _ _ _ _ D1 i f I) as (id & d & O). assert (L : i < lim) by (apply X1, (dn_keys _ _ _ _ D1), in_map_iff; exists (i, f); auto). destruct (dn_calc _ _ _ _ D2 i (proj2 (X2 i) L)) as (? & ? & f' & O' & _ & R').
        rewrite O in O'. injection O' as _ _ <-. apply result_in, R'. }
      split; eauto.
Qed.

(** Any two schedules. *)
Theorem acts_any lim s s' c0 c r : calm (c_ev c0) -> valid_schedule lim s -> valid_schedule lim s' -> do_acts ev s (c0, []) = Some (c, r) ->
  exists r', do_acts ev s' (c0, []) = Some (c, r') /\ Permutation r r'.
Proof.
  intros C V V' E. destruct (schedule_facts lim s V) as (Nd & Or & Ca & Re). destruct (schedule_facts lim s' V') as (Nd' & Or' & Ca' & Re').
  destruct (acts_done c0 s C [] c0 [] Nd Or (done_start c0)) as [A _]. pose proof (A c r E) as D. cbn [app] in D. destruct (acts_done c0 s' C [] c0 [] Nd' Or' (done_start c0)) as [A' B'].
  destruct B' as (c' & r' & E').
  - intros i Hi. apply Ca' in Hi. destruct (dn_calc _ _ _ _ D i (proj2 (Ca i) Hi)) as (? & ? & ? & O & _). congruence.
  - intros i Hi. apply Re' in Hi. destruct (dn_recv _ _ _ _ D i (proj2 (Re i) Hi)) as (? & ? & ? & _ & F). rewrite <- (dn_len _ _ _ _ D). apply nth_error_Some. congruence.
  - destruct (done_same c0 s s' c r c' r' lim Ca Ca' Re Re' D (A' c' r' E')) as [-> P]. eauto.
Qed.
(** Afterwards no base is pending. *)
Lemma acts_rest lim s c0 c r : calm (c_ev c0) -> below lim (c_ev c0) -> valid_schedule lim s -> do_acts ev s (c0, []) = Some (c, r) -> at_rest (c_ev c).
Proof.
  intros C B V E. destruct (schedule_facts lim s V) as (Nd & Or & Ca & Re). destruct (acts_done c0 s C [] c0 [] Nd Or (done_start c0)) as [A _]. pose proof (A c r E) as D. cbn [app] in D.
  split; [rewrite (dn_order _ _ _ _ D); apply C|]. intros id tri b F. destruct (in_dec Nat.eq_dec id (firstn lim (b_order (c_ev c0)))) as [I|I].
  - apply In_nth_error in I as [i Hi]. assert (Li : i < lim). { assert (i < length (firstn lim (b_order (c_ev c0)))) by (apply nth_error_Some; congruence). rewrite firstn_length in H. lia. }
    assert (Ei : nth_error (b_order (c_ev c0)) i = Some id). { rewrite <- (firstn_skipn lim (b_order (c_ev c0))). rewrite nth_error_app1; [exact Hi|]. apply nth_error_Some. congruence. }
    destruct (dn_calc _ _ _ _ D i (proj2 (Ca i) Li)) as (k & d & f & O & F' & _). pose proof (outcome_order _ _ _ _ _ O) as Ok. congruence.
  - destruct b as [b|]; [|reflexivity]. exfalso. assert (X : forall i, i < lim -> nth_error (b_order (c_ev c0)) i <> Some id). { intros i Li Ei. apply I. apply nth_error_In with i. assert (i < length (b_order (c_ev c0))) by (apply nth_error_Some; congruence).
      rewrite <- Ei. rewrite <- (firstn_skipn lim (b_order (c_ev c0))) at 2. rewrite nth_error_app1; [reflexivity|]. rewrite firstn_length. lia. }
    rewrite (dn_other _ _ _ _ D id ltac:(intros i Hi; apply X, Ca, Hi)) in F. destruct (B id tri b F) as (i & Li & Ei). exact (X i Li Ei).
Qed.
(** newGeneration makes bases pending, only for the mutated members and only to kept members. *)
Definition fresh (cutoff lim : nat) (e : keeper T) : Prop := NoDup (b_order e) /\ forall id tri b, nth_error (b_funs e) id = Some (tri, Some b) ->
  (exists i, cutoff <= i < lim /\ nth_error (b_order e) i = Some id) /\ exists j d, j < cutoff /\ nth_error (b_order e) j = Some b /\ nth_error (b_funs e) b = Some (Some d, None).
Lemma fresh_calm cutoff lim e : fresh cutoff lim e -> calm e /\ below lim e.
Proof. intros [N H]. split; [split; [exact N|]|]; intros id tri b E; destruct (H id tri b E) as [(i & L & Ei) (j & d & Lj & Ej & Ed)]; [eauto|]. exists i. split; [lia|exact Ei]. Qed.
Lemma rest_fresh cutoff lim e : at_rest e -> fresh cutoff lim e.
Proof. intros [N H]. split; [exact N|]. intros id tri b E. apply H in E. discriminate. Qed.
Lemma base_fresh cutoff lim e i j e' : fresh cutoff lim e -> cutoff <= i < lim -> j < cutoff -> ev_base ev e i j = Some e' -> fresh cutoff lim e'.
Proof.
  intros [N H] Li Lj. cbn [keep_ev ev_base]. destruct (b_at e i) as [[id [tri bi]]|] eqn:Ei; [|discriminate]. destruct (b_at e j) as [[jd [trj bj]]|] eqn:Ej; [|discriminate]. intros [= <-].
  apply b_at_nth in Ei as [Oi Fi]. apply b_at_nth in Ej as [Oj Fj]. assert (Nij : id <> jd) by (intros ->; pose proof (nodup_pos _ i j _ N Oi Oj); lia).
  assert (Bj : bj = None). { destruct bj as [b|]; [|reflexivity]. destruct (H jd trj b Fj) as [(k & Lk & Ek) _]. pose proof (nodup_pos _ k j _ N Ek Oj). lia. } subst bj.
  split; [exact N|]. cbn [b_funs b_order]. intros k t b E. rewrite nth_error_set_nth in E. destruct (Nat.eqb_spec id k) as [<-|Nk].
  - destruct (_ <? _); [|discriminate]. injection E as _ E. split; [eauto|]. destruct trj as [d|]; [|discriminate]. injection E as <-. exists j, d. split; [exact Lj|]. split; [exact Oj|]. rewrite nth_error_set_nth. destruct (Nat.eqb_spec id jd); [contradiction|exact Fj].
  - destruct (H k t b E) as [P (j' & d & Lj' & Ej' & Ed)]. split; [exact P|]. exists j', d. split; [exact Lj'|]. split; [exact Ej'|]. rewrite nth_error_set_nth. destruct (Nat.eqb_spec id b) as [->|]; [|exact Ed]. pose proof (nodup_pos _ j' i _ N Ej' Oi). lia.
Qed.
Lemma copy_ev i j (c c' : core (keeper T)) : copy_member i j c = Some c' -> c_ev c' = c_ev c.
Proof. unfold copy_member. destruct (nth_error (c_newpop c) i); [|discriminate]. destruct (nth_error (c_pop c) j); [|discriminate]. destruct (put _ _ _); [|discriminate]. destruct (buf_set _ _ _); [|discriminate]. intros [= <-]. reflexivity. Qed.
Lemma keep_ev_same n : forall i (c c' : core (keeper T)), keep_bases n i c = Some c' -> c_ev c' = c_ev c.
Proof. induction n as [|n IH]; intros i c c'; cbn [keep_bases]; [intros [= <-]; reflexivity|]. destruct (copy_member i i c) as [c1|] eqn:E; [|discriminate]. intros H. rewrite (IH _ _ _ H). exact (copy_ev _ _ _ _ E). Qed.
Lemma member_fresh cutoff lim mu i j c c' : fresh cutoff lim (c_ev c) -> cutoff <= i < lim -> j < cutoff -> new_member ev mu i j c = Some c' -> fresh cutoff lim (c_ev c').
Proof.
  intros F Li Lj. unfold new_member. destruct (copy_member i j c) as [c1|] eqn:E; [|discriminate]. rewrite <- (copy_ev _ _ _ _ E) in F. destruct (ev_base ev (c_ev c1) i j) as [e|] eqn:B; [|discriminate]. destruct (nth_error (c_newpop c1) i); [|discriminate].
  destruct (mu i _) as [pts log]. intros [= <-]. exact (base_fresh _ _ _ _ _ _ F Li Lj B).
Qed.
Lemma inner_fresh cutoff lim mu n : forall j i c c' i', j + n = cutoff -> cutoff <= i -> fresh cutoff lim (c_ev c) -> inner_loop ev mu n j i lim c = Some (c', i') -> fresh cutoff lim (c_ev c') /\ i <= i'.
Proof.
  induction n as [|n IH]; intros j i c c' i' Hj Hi F; cbn [inner_loop]; [intros [= <- <-]; auto|]. destruct (Nat.ltb_spec i lim) as [L|L]; [|intros [= <- <-]; auto]. destruct (new_member ev mu i j c) as [c1|] eqn:E; [|discriminate]. intros H.
  destruct (IH (S j) (S i) c1 c' i' ltac:(lia) ltac:(lia) (member_fresh cutoff lim mu i j c c1 F ltac:(lia) ltac:(lia) E) H) as [A B]. split; [exact A|lia].
Qed.
Lemma outer_fresh cutoff lim mu n : forall i c c', cutoff <= i -> fresh cutoff lim (c_ev c) -> outer_loop ev n mu cutoff i lim c = Some c' -> fresh cutoff lim (c_ev c').
Proof.
  induction n as [|n IH]; intros i c c' Hi F; cbn [outer_loop]; destruct (i <? lim); try discriminate; try (intros [= <-]; exact F). destruct (inner_loop ev mu cutoff 0 i lim c) as [[c1 i1]|] eqn:E; [|discriminate].
  destruct (inner_fresh cutoff lim mu cutoff 0 i c c1 i1 eq_refl Hi F E) as [F1 L]. apply IH; [lia|exact F1].
Qed.
Lemma generation_fresh cutoff lim mu c c' : at_rest (c_ev c) -> new_generation ev mu cutoff lim c = Some c' -> fresh cutoff lim (c_ev c').
Proof.
  intros R. unfold new_generation. destruct (keep_bases cutoff 0 c) as [c1|] eqn:K; [|discriminate]. destruct (outer_loop ev lim mu cutoff cutoff lim c1) as [c2|] eqn:O; [|discriminate]. intros [= <-]. cbn [c_ev].
  apply (outer_fresh cutoff lim mu lim cutoff c1 c2 (le_n _)); [|exact O]. rewrite (keep_ev_same _ _ _ _ K). apply rest_fresh, R.
Qed.
Lemma swaps_rest sw : forall c c', at_rest (c_ev c) -> do_swaps ev sw c = Some c' -> at_rest (c_ev c').
Proof.
  induction sw as [|[i j] sw IH]; intros c c' R; cbn [do_swaps]; [intros [= <-]; exact R|]. destruct (swap_members ev c (i, j)) as [c1|] eqn:E; [|discriminate]. apply IH. revert E. unfold swap_members. destruct (swap_at i j (c_fits c)); [|discriminate]. destruct (swap_at i j (c_pop c)); [|discriminate].
  cbn [keep_ev ev_swap]. destruct (swap_at i j (b_order (c_ev c))) as [o|] eqn:O; [|discriminate]. intros [= <-]. cbn [c_ev]. split; cbn [b_order b_funs]; [|apply R]. eapply Permutation_NoDup; [apply Permutation_sym, (swap_at_perm _ _ _ _ O)|apply R].
Qed.
Lemma update_rest sw c c' : at_rest (c_ev c) -> update_fitnesses ev sw c = Some c' -> at_rest (c_ev c').
Proof.
  intros R. unfold update_fitnesses. destruct (do_swaps ev sw c) as [c1|] eqn:E; [|discriminate]. unfold take_best. destruct (nth_error (c_pop c1) 0); [|discriminate]. destruct (nth_error (c_fits c1) 0); [|discriminate]. destruct (buf_set _ _ _); [|discriminate]. intros [= <-]. exact (swaps_rest _ _ _ R E).
Qed.

(** simple.Step under two schedules. *)
Theorem step_any n cutoff mu s s' sw c c1 r : at_rest (c_ev c) -> both n c -> valid_schedule n s -> valid_schedule n s' -> simple_step ev cutoff mu s sw c = Some (c1, r) ->
  at_rest (c_ev c1) /\ both n c1 /\ exists r', simple_step ev cutoff mu s' sw c = Some (c1, r') /\ Permutation r r'.
Proof.
  intros R [B1 B2] V V'. unfold simple_step. rewrite B1. destruct (new_generation ev mu cutoff n c) as [c2|] eqn:G; [|discriminate]. destruct (fresh_calm _ _ _ (generation_fresh _ _ _ _ _ R G)) as [Ca Be]. unfold simple_calc. destruct (_ =? 0); [discriminate|].
  destruct (do_acts ev s (c2, [])) as [[c3 r3]|] eqn:A; [|discriminate]. destruct (update_fitnesses ev sw c3) as [c4|] eqn:U; [|discriminate]. intros [= <- <-]. destruct (acts_any n s s' c2 c3 r3 Ca V V' A) as (r' & A' & P). rewrite A', U. cbn [option_map]. split; [|split; [|eauto]].
  - exact (update_rest _ _ _ (acts_rest n s c2 c3 r3 Ca Be V A) U).
  - apply gen_pops in G. apply update_len in U. destruct G as [G1 G2], U as [U1 U2]. destruct (schedule_facts n s V) as (Nd & Or & _). destruct (acts_done c2 s Ca [] c2 [] Nd Or (done_start c2)) as [D _]. destruct (dn_same _ _ _ _ (D c3 r3 A)) as (_ & S2 & S3 & _).
    split; cbn [next_gen c_pop c_newpop]; congruence.
Qed.
Theorem new_any n groups e s s' sw c1 r : at_rest e -> length groups = n -> valid_schedule n s -> valid_schedule n s' -> new_simple ev groups e s sw = Some (c1, r) ->
  at_rest (c_ev c1) /\ both n c1 /\ exists r', new_simple ev groups e s' sw = Some (c1, r') /\ Permutation r r'.
Proof.
  intros R Hn V V'. unfold new_simple. destruct (init_core groups e) as [c2|] eqn:I; [|discriminate]. assert (Be : both n c2 /\ c_ev c2 = e). { unfold init_core in I. destruct groups as [|g0 gs]; [discriminate|]. injection I as <-. split; [split; cbn [c_pop c_newpop length]; rewrite ?seq_length; exact Hn|reflexivity]. }
  destruct Be as [[B1 B2] Ee]. rewrite <- Ee in R. destruct (rest_calm _ R) as [Ca Be]. assert (Bn : below n (c_ev c2)) by (intros id tri b E; apply R in E; discriminate). unfold simple_calc. destruct (_ =? 0); [discriminate|].
  destruct (do_acts ev s (c2, [])) as [[c3 r3]|] eqn:A; [|discriminate]. destruct (update_fitnesses ev sw c3) as [c4|] eqn:U; [|discriminate]. intros [= <- <-]. destruct (acts_any n s s' c2 c3 r3 Ca V V' A) as (r' & A' & P). rewrite A', U. cbn [option_map]. split; [|split; [|eauto]].
  - exact (update_rest _ _ _ (acts_rest n s c2 c3 r3 Ca Bn V A) U).
  - apply update_len in U. destruct U as [U1 U2]. destruct (schedule_facts n s V) as (Nd & Or & _). destruct (acts_done c2 s Ca [] c2 [] Nd Or (done_start c2)) as [D _]. destruct (dn_same _ _ _ _ (D c3 r3 A)) as (_ & S2 & S3 & _). split; congruence.
Qed.
(** Whole runs. *)
Theorem run_any n cutoff groups e s s' sw l l' c rs : at_rest e -> length groups = n -> schedules_ok n s l -> schedules_ok n s' l' -> same_inputs l l' -> simple_run_of ev cutoff groups e s sw l = Some (c, rs) ->
  exists rs', simple_run_of ev cutoff groups e s' sw l' = Some (c, rs') /\ Forall2 (@Permutation _) rs rs'.
Proof.
  intros R Hn [V VL] [V' VL'] I. unfold simple_run_of. destruct (new_simple ev groups e s sw) as [[c0 r0]|] eqn:E; [|discriminate]. destruct (new_any n groups e s s' sw c0 r0 R Hn V V' E) as (R0 & B0 & r0' & -> & P0).
  assert (Q : Forall2 (@Permutation _) [r0] [r0']) by (constructor; [exact P0|constructor]). revert Q. generalize [r0] [r0']. clear E P0 r0 r0' V V'. revert c0 R0 B0 VL VL'.
  induction I as [|[[mu s1] sw1] [[mu' s1'] sw1'] l l' [Em Es] I IH]; intros c0 R0 B0 VL VL' q q' Q; cbn [simple_steps_of fst snd].
  - intros [= <- <-]. eauto.
  - cbn [fst snd] in Em, Es. subst mu' sw1'. inversion VL as [|? ? V1 V2]; subst. inversion VL' as [|? ? V1' V2']; subst. cbn [fst snd] in V1, V1'. destruct (simple_step ev cutoff mu s1 sw1 c0) as [[c1 r1]|] eqn:E; [|discriminate].
    destruct (step_any _ cutoff mu s1 s1' sw1 c0 c1 r1 R0 B0 V1 V1' E) as (R1 & B1 & r1' & -> & P1). apply IH; try assumption. apply Forall2_app; [exact Q|constructor; [exact P1|constructor]].
Qed.
(** calculateFitnesses of modifiedGenetic does to the members, fitnesses and objects what the one
    of simple does. *)
Lemma g_acts_core cutoff s : forall g r g' r', g_acts ev cutoff s (g, r) = Some (g', r') -> do_acts ev s (g_core g, r) = Some (g_core g', r') /\ length (g_ben g') = length (g_ben g).
Proof.
  induction s as [|a s IH]; intros g r g' r'; cbn [g_acts do_acts]; [intros [= <- <-]; auto|]. unfold g_act at 1. destruct (do_act ev (g_core g, r) a) as [[c1 r1]|] eqn:E; [|discriminate]. destruct a as [|i|i].
  1,2: intros H; exact (IH (MGen c1 (g_ben g)) r1 g' r' H). destruct (get_base cutoff i) as [b|]; [|discriminate]. destruct (b <? _); [|discriminate]. destruct (flt _ _).
  - destruct (set_beneficial cutoff i (c_fits c1) (c_muts c1) (g_ben g)) as [ben|] eqn:B; [|discriminate]. intros H. destruct (IH (MGen c1 ben) r1 g' r' H) as [A L]. split; [exact A|]. rewrite L. revert B. cbn [g_ben]. unfold set_beneficial.
    destruct (get_base cutoff i) as [b'|]; [|discriminate]. destruct (nth_error (c_muts c1) i) as [ms|]; [|discriminate]. destruct (nth_error (g_ben g) b') as [bm|]; [intros [= <-]; apply L_Slice.set_nth_length|]. destruct ms; [intros [= <-]; reflexivity|discriminate].
  - intros H. exact (IH (MGen c1 (g_ben g)) r1 g' r' H).
Qed.
Lemma act_muts c r a c' r' : do_act ev (c, r) a = Some (c', r') -> c_muts c' = c_muts c /\ length (c_fits c') = length (c_fits c).
Proof.
  destruct a as [|i|i]; cbn [do_act].
  - destruct (ev_prepare ev (c_ev c)); [|discriminate]. intros [= <- <-]. auto.
  - destruct (nth_error (c_pop c) i); [|discriminate]. destruct (nth_error (c_muts c) i); [|discriminate]. destruct (ev_calc ev _ _ _ _); [|discriminate]. intros [= <- <-]. auto.
  - destruct (result r i) as [f|]; [|discriminate]. destruct (put i f (c_fits c)) as [fs|] eqn:P; [|discriminate]. destruct (ev_update ev _ _); [|discriminate]. intros [= <- <-]. apply put_inv in P as [_ ->]. split; [reflexivity|]. apply L_Slice.set_nth_length.
Qed.
Lemma g_acts_total cutoff s : cutoff <> 0 -> forall g r c' r', cutoff <= length (c_fits (g_core g)) -> length (g_ben g) = cutoff -> (forall i, In (Recv i) s -> i < length (c_muts (g_core g))) -> do_acts ev s (g_core g, r) = Some (c', r') ->
  exists g', g_acts ev cutoff s (g, r) = Some (g', r') /\ g_core g' = c'.
Proof.
  intros Hc. induction s as [|a s IH]; intros g r c' r' Lf Lb Lm; cbn [g_acts do_acts]; [intros [= <- <-]; eauto|]. unfold g_act at 1. destruct (do_act ev (g_core g, r) a) as [[c1 r1]|] eqn:E; [|discriminate]. destruct (act_muts _ _ _ _ _ E) as [M F]. intros H.
  assert (K : forall ben, length ben = cutoff -> exists g', g_acts ev cutoff s (MGen c1 ben, r1) = Some (g', r') /\ g_core g' = c').
  { intros ben L. apply (IH (MGen c1 ben) r1 c' r'); [cbn [g_core]; lia|exact L|intros i Hi; cbn [g_core]; rewrite M; apply Lm; right; exact Hi|exact H]. }
  destruct a as [|i|i]; [apply K, Lb|apply K, Lb|]. unfold get_base. destruct (Nat.eqb_spec cutoff 0); [contradiction|]. assert (B : i mod cutoff < cutoff) by (apply Nat.mod_upper_bound; exact Hc). destruct (Nat.ltb_spec (i mod cutoff) (length (c_fits c1))); [|lia]. destruct (flt _ _); [|apply K, Lb].
  unfold set_beneficial, get_base. destruct (Nat.eqb_spec cutoff 0); [contradiction|]. assert (Li : i < length (c_muts c1)) by (rewrite M; apply Lm; left; reflexivity). apply nth_error_Some in Li. destruct (nth_error (c_muts c1) i) as [ms|]; [|congruence].
  destruct (nth_error (g_ben g) (i mod cutoff)) as [bm|] eqn:Eb; [|apply nth_error_None in Eb; lia]. cbn [option_map]. apply K. rewrite L_Slice.set_nth_length. exact Lb.
Qed.
Theorem g_calc_any lim cutoff s s' g g' r : calm (c_ev (g_core g)) -> cutoff <> 0 -> length (g_ben g) = cutoff -> cutoff <= length (c_fits (g_core g)) -> valid_schedule lim s -> valid_schedule lim s' -> g_calc ev cutoff s g = Some (g', r) ->
  exists g'' r', g_calc ev cutoff s' g = Some (g'', r') /\ g_core g'' = g_core g' /\ Permutation r r'.
Proof.
  intros Ca Hc Lb Lf V V'. unfold g_calc. destruct (_ <=? _); [discriminate|]. intros A. destruct (g_acts_core _ _ _ _ _ _ A) as [D _]. destruct (acts_any lim s s' _ _ _ Ca V V' D) as (r' & D' & P).
  destruct (schedule_facts lim s V) as (Nd & Or & Cs & _). destruct (schedule_facts lim s' V') as (_ & _ & _ & Rs). assert (Lm : forall i, In (Recv i) s' -> i < length (c_muts (g_core g))); [|destruct (g_acts_total cutoff s' Hc g [] _ _ Lf Lb Lm D') as (g'' & A' & E); exists g'', r'; auto].
  intros i Hi. apply Rs, Cs in Hi. destruct (acts_done (g_core g) s Ca [] (g_core g) [] Nd Or (done_start _)) as [X _]. destruct (dn_calc _ _ _ _ (X _ _ D) i Hi) as (id & d & f & O & _). unfold outcome in O. destruct (nth_error (c_pop (g_core g)) i); [|discriminate]. destruct (nth_error (c_muts (g_core g)) i) eqn:Em; [|discriminate]. apply nth_error_Some. congruence.
Qed.

(** modifiedGenetic too leaves no base pending at the end of a Step. *)
Lemma combine_one_rest cutoff i g r g' r' : cutoff <= i -> cutoff <> 0 -> at_rest (c_ev (g_core g)) -> combine_one ev cutoff i (g, r) = Some (g', r') -> at_rest (c_ev (g_core g')).
Proof.
  intros Hi Hc R. unfold combine_one. destruct (put i [] (c_muts (g_core g))); [|discriminate]. unfold get_base. destruct (Nat.eqb_spec cutoff 0); [contradiction|]. destruct (nth_error (c_pop (g_core g)) i); [|discriminate].
  destruct (nth_error (g_ben g) (i mod cutoff)) as [[|x bm]|]; [| |discriminate].
  - destruct (put i f0 _); [|discriminate]. intros [= <- <-]. exact R.
  - destruct (nth_error (c_pop (g_core g)) (i mod cutoff)); [|discriminate]. destruct (ev_base ev _ _ _) as [e1|] eqn:B; [|discriminate]. destruct (buf_set _ _ _) as [st1|]; [|discriminate]. destruct (apply_muts _ _) as [pts|]; [|discriminate].
    destruct (ev_calc ev e1 i pts _) as [[e2 f]|] eqn:C; [|discriminate]. destruct (put i f _); [|discriminate]. destruct (ev_update ev e2 i) as [e3|] eqn:U; [|discriminate]. intros [= <- <-]. cbn [g_core with_ev c_ev].
    assert (M : i mod cutoff < cutoff) by (apply Nat.mod_upper_bound; exact Hc). destruct (base_fresh cutoff (S i) _ i (i mod cutoff) e1 (rest_fresh _ _ _ R) ltac:(lia) M B) as [N F].
    cbn [keep_ev ev_update] in U. destruct (b_at e2 i); [|discriminate]. injection U as <-. cbn [keep_ev ev_calc] in C. destruct (b_at e1 i) as [[id [tri base]]|] eqn:E1; [|discriminate]. destruct (match base with Some b => b =? id | None => false end); [discriminate|].
    destruct (next _ _ _ _) as [d|]; [|discriminate]. destruct (fit d); [|discriminate]. injection C as <- _. apply b_at_nth in E1 as [Oi Fi]. cbn [keep_ev ev_base] in B. destruct (b_at (c_ev (g_core g)) i) as [[id0 [tri0 b0]]|] eqn:E0; [|discriminate].
    destruct (b_at (c_ev (g_core g)) (i mod cutoff)) as [[jd [trj bj]]|] eqn:Ej; [|discriminate]. injection B as <-. cbn [b_order b_funs] in *. apply b_at_nth in E0 as [O0 _]. assert (id0 = id) by congruence. subst id0.
    split; [exact N|]. cbn [b_funs]. intros k t b H. rewrite nth_error_set_nth in H. destruct (Nat.eqb_spec id k) as [->|Nk]; [destruct (_ <? _); [injection H as _ <-; reflexivity|discriminate]|]. rewrite nth_error_set_nth in H. destruct (Nat.eqb_spec id k); [contradiction|]. exact (proj2 R _ _ _ H).
Qed.
Lemma combine_rest cutoff n : cutoff <> 0 -> forall i g r g' r', cutoff <= i -> at_rest (c_ev (g_core g)) -> combine_muts ev cutoff n i (g, r) = Some (g', r') -> at_rest (c_ev (g_core g')).
Proof.
  intros Hc. induction n as [|n IH]; intros i g r g' r' Hi R; cbn [combine_muts]; [intros [= <- <-]; exact R|]. destruct (combine_one ev cutoff i (g, r)) as [[g1 r1]|] eqn:A; [|discriminate]. apply IH; [lia|]. exact (combine_one_rest _ _ _ _ _ _ Hi Hc R A).
Qed.
Lemma copy_fits i j (c c' : core (keeper T)) : copy_member i j c = Some c' -> c_fits c' = c_fits c.
Proof. unfold copy_member. destruct (nth_error (c_newpop c) i); [|discriminate]. destruct (nth_error (c_pop c) j); [|discriminate]. destruct (put _ _ _); [|discriminate]. destruct (buf_set _ _ _); [|discriminate]. intros [= <-]. reflexivity. Qed.
Lemma keep_fits n : forall i (c c' : core (keeper T)), keep_bases n i c = Some c' -> c_fits c' = c_fits c.
Proof. induction n as [|n IH]; intros i c c'; cbn [keep_bases]; [intros [= <-]; reflexivity|]. destruct (copy_member i i c) as [c1|] eqn:E; [|discriminate]. intros H. rewrite (IH _ _ _ H). exact (copy_fits _ _ _ _ E). Qed.
Lemma inner_fits mu n : forall j i lim c c' i', inner_loop ev mu n j i lim c = Some (c', i') -> c_fits c' = c_fits c.
Proof.
  induction n as [|n IH]; intros j i lim c c' i'; cbn [inner_loop]; [intros [= <- <-]; reflexivity|]. destruct (i <? lim); [|intros [= <- <-]; reflexivity]. destruct (new_member ev mu i j c) as [c1|] eqn:E; [|discriminate]. intros H. rewrite (IH _ _ _ _ _ _ H). revert E. unfold new_member.
  destruct (copy_member i j c) as [c2|] eqn:E; [|discriminate]. rewrite <- (copy_fits _ _ _ _ E). destruct (ev_base ev _ _ _); [|discriminate]. destruct (nth_error (c_newpop c2) i); [|discriminate]. destruct (mu i _). intros [= <-]. reflexivity.
Qed.
Lemma outer_fits mu cutoff n : forall i lim c c', outer_loop ev n mu cutoff i lim c = Some c' -> c_fits c' = c_fits c.
Proof.
  induction n as [|n IH]; intros i lim c c'; cbn [outer_loop]; destruct (i <? lim); try discriminate; try (intros [= <-]; reflexivity). destruct (inner_loop ev mu cutoff 0 i lim c) as [[c1 i1]|] eqn:E; [|discriminate]. intros H. rewrite (IH _ _ _ _ H). exact (inner_fits _ _ _ _ _ _ _ _ E).
Qed.
Lemma generation_fits mu cutoff lim c c' : new_generation ev mu cutoff lim c = Some c' -> c_fits c' = c_fits c.
Proof.
  unfold new_generation. destruct (keep_bases cutoff 0 c) as [c1|] eqn:K; [|discriminate]. destruct (outer_loop ev lim mu cutoff cutoff lim c1) as [c2|] eqn:O; [|discriminate]. intros [= <-]. cbn [c_fits]. rewrite (outer_fits _ _ _ _ _ _ _ O). exact (keep_fits _ _ _ _ K).
Qed.
Lemma acts_fits s : forall c r c' r', do_acts ev s (c, r) = Some (c', r') -> length (c_fits c') = length (c_fits c).
Proof.
  induction s as [|a s IH]; intros c r c' r'; cbn [do_acts]; [intros [= <- <-]; reflexivity|]. destruct (do_act ev (c, r) a) as [[c1 r1]|] eqn:E; [|discriminate]. intros H. rewrite (IH _ _ _ _ H). apply (act_muts _ _ _ _ _ E).
Qed.
Lemma combine_one_sizes cutoff i g r g' r' : combine_one ev cutoff i (g, r) = Some (g', r') -> length (c_fits (g_core g')) = length (c_fits (g_core g)) /\ g_ben g' = g_ben g.
Proof.
  unfold combine_one. destruct (put i [] (c_muts (g_core g))); [|discriminate]. destruct (get_base cutoff i) as [b|]; [|discriminate]. destruct (nth_error (c_pop (g_core g)) i); [|discriminate]. destruct (nth_error (g_ben g) b) as [[|x bm]|]; [| |discriminate].
  - destruct (put i f0 _) as [fs|] eqn:P; [|discriminate]. intros [= <- <-]. apply put_inv in P as [_ ->]. split; [apply L_Slice.set_nth_length|reflexivity].
  - destruct (nth_error (c_pop (g_core g)) b); [|discriminate]. destruct (ev_base ev _ _ _) as [e1|]; [|discriminate]. destruct (buf_set _ _ _) as [st1|]; [|discriminate]. destruct (apply_muts _ _) as [pts|]; [|discriminate].
    destruct (ev_calc ev e1 i pts _) as [[e2 f]|]; [|discriminate]. destruct (put i f _) as [fs|] eqn:P; [|discriminate]. destruct (ev_update ev e2 i) as [e3|]; [|discriminate]. intros [= <- <-]. apply put_inv in P as [_ ->]. split; [apply L_Slice.set_nth_length|reflexivity].
Qed.
Lemma combine_sizes cutoff n : forall i g r g' r', combine_muts ev cutoff n i (g, r) = Some (g', r') -> length (c_fits (g_core g')) = length (c_fits (g_core g)) /\ g_ben g' = g_ben g.
Proof.
  induction n as [|n IH]; intros i g r g' r'; cbn [combine_muts]; [intros [= <- <-]; auto|]. destruct (combine_one ev cutoff i (g, r)) as [[g1 r1]|] eqn:A; [|discriminate]. intros H. destruct (IH _ _ _ _ _ H) as [-> ->]. exact (combine_one_sizes _ _ _ _ _ _ A).
Qed.
Lemma swaps_fits sw : forall c c', do_swaps ev sw c = Some c' -> length (c_fits c') = length (c_fits c).
Proof.
  induction sw as [|[i j] sw IH]; intros c c'; cbn [do_swaps]; [intros [= <-]; reflexivity|]. destruct (swap_members ev c (i, j)) as [c1|] eqn:E; [|discriminate]. intros H. rewrite (IH _ _ H). revert E. unfold swap_members. destruct (swap_at i j (c_fits c)) eqn:S1; [|discriminate]. destruct (swap_at i j (c_pop c)); [|discriminate].
  destruct (ev_swap ev _ _ _); [|discriminate]. intros [= <-]. exact (swap_at_length _ _ _ _ S1).
Qed.
Lemma update_fits sw c c' : update_fitnesses ev sw c = Some c' -> length (c_fits c') = length (c_fits c).
Proof.
  unfold update_fitnesses. destruct (do_swaps ev sw c) as [c1|] eqn:E; [|discriminate]. unfold take_best. destruct (nth_error (c_pop c1) 0); [|discriminate]. destruct (nth_error (c_fits c1) 0); [|discriminate]. destruct (buf_set _ _ _); [|discriminate]. intros [= <-]. exact (swaps_fits _ _ _ E).
Qed.

(** Between the Steps of modifiedGenetic. *)
Record ready (cutoff n : nat) (g : mgen (keeper T)) : Prop := { rd_rest : at_rest (c_ev (g_core g)); rd_both : both n (g_core g); rd_fits : length (c_fits (g_core g)) = n; rd_ben : length (g_ben g) = cutoff }.
Lemma genetic_ready cutoff n mu s sw g g' r : cutoff <> 0 -> 2 * cutoff <= n -> valid_schedule (n - cutoff) s -> ready cutoff n g -> genetic_step ev cutoff mu s sw g = Some (g', r) -> ready cutoff n g'.
Proof.
  intros Hc Hn V [R B Lf Lb] E. pose proof (genetic_both _ _ _ _ _ _ _ _ _ B E) as B'. revert E. unfold genetic_step. rewrite (proj1 B). destruct (new_generation ev mu cutoff (n - cutoff) (g_core g)) as [c1|] eqn:G; [|discriminate].
  destruct (g_calc ev cutoff s _) as [[g2 r2]|] eqn:A; [|discriminate]. destruct (combine_muts ev cutoff cutoff _ (g2, r2)) as [[g3 r3]|] eqn:C; [|discriminate]. destruct (update_fitnesses ev sw (g_core g3)) as [c4|] eqn:U; [|discriminate]. intros [= <- <-].
  unfold g_calc in A. destruct (_ <=? _); [discriminate|]. destruct (g_acts_core _ _ _ _ _ _ A) as [D L]. cbn [g_core g_ben] in D, L. rewrite map_length in L. destruct (fresh_calm _ _ _ (generation_fresh _ _ _ _ _ R G)) as [Ca Be]. pose proof (acts_rest _ _ _ _ _ Ca Be V D) as R2.
  pose proof (combine_rest cutoff cutoff Hc (n - cutoff) g2 r2 g3 r3 ltac:(lia) R2 C) as R3. destruct (combine_sizes _ _ _ _ _ _ _ C) as [F3 L3].
  constructor; cbn [g_core g_ben next_gen c_ev c_fits]; [exact (update_rest _ _ _ R3 U)|exact B'| |congruence]. rewrite (update_fits _ _ _ U), F3, (acts_fits _ _ _ _ _ D), (generation_fits _ _ _ _ _ G). exact Lf.
Qed.
Lemma new_genetic_ready cutoff n groups e s sw g r : length groups = n -> at_rest e -> valid_schedule (n - cutoff) s -> new_genetic ev cutoff groups e s sw = Some (g, r) -> ready cutoff n g.
Proof.
  intros Hn R V E. pose proof (new_both _ _ _ _ _ _ _ _ E) as B'. rewrite Hn in B'. revert E. unfold new_genetic. destruct (init_core groups e) as [c1|] eqn:I; [|discriminate]. destruct (g_calc ev cutoff s _) as [[g2 r2]|] eqn:A; [|discriminate]. destruct (update_fitnesses ev sw (g_core g2)) as [c4|] eqn:U; [|discriminate]. intros [= <- <-].
  unfold g_calc in A. destruct (_ <=? _); [discriminate|]. destruct (g_acts_core _ _ _ _ _ _ A) as [D L]. cbn [g_core g_ben] in D, L. rewrite repeat_length in L.
  assert (X : length (c_fits c1) = n /\ c_ev c1 = e). { unfold init_core in I. destruct groups as [|g0 gs]; [discriminate|]. injection I as <-. split; [cbn [c_fits length]; rewrite ?repeat_length; exact Hn|reflexivity]. } destruct X as [Lf Ee]. rewrite <- Ee in R.
  destruct (rest_calm _ R) as [Ca _]. assert (Bn : below (n - cutoff) (c_ev c1)) by (intros id tri b E; apply R in E; discriminate). pose proof (acts_rest _ _ _ _ _ Ca Bn V D) as R2.
  constructor; cbn [g_core g_ben]; [exact (update_rest _ _ _ R2 U)|exact B'| |exact L]. rewrite (update_fits _ _ _ U), (acts_fits _ _ _ _ _ D). exact Lf.
Qed.
Theorem genetic_calc_any n cutoff mu s s' g c1 g' r : cutoff <> 0 -> 2 * cutoff <= n -> valid_schedule (n - cutoff) s -> valid_schedule (n - cutoff) s' -> ready cutoff n g -> new_generation ev mu cutoff (n - cutoff) (g_core g) = Some c1 ->
  g_calc ev cutoff s (MGen c1 (map (fun _ => []) (g_ben g))) = Some (g', r) -> exists g'' r', g_calc ev cutoff s' (MGen c1 (map (fun _ => []) (g_ben g))) = Some (g'', r') /\ g_core g'' = g_core g' /\ Permutation r r'.
Proof.
  intros Hc Hn V V' [R B Lf Lb] G A. apply (g_calc_any (n - cutoff) cutoff s s' _ g' r); try assumption; cbn [g_core g_ben].
  - exact (proj1 (fresh_calm _ _ _ (generation_fresh _ _ _ _ _ R G))).
  - rewrite map_length. exact Lb.
  - rewrite (generation_fits _ _ _ _ _ G). lia.
Qed.
End Sched.
