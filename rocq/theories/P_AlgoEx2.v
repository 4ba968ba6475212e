(** A concrete case for C34, and the limit of the number of bases. *)
From Coq Require Import ZArith List Bool Arith Lia Permutation.
From Flocq Require Import IEEE754.BinarySingleNaN.
From Verif Require Import GoNum FloatLemmas M_Norm M_Slice M_Algo S_Norm S_Algo L_Norm L_Algo P_Norm P_Algo P_Combine P_AlgoEx.
Import ListNotations.

(** * Schedules that can be checked by computation *)
Definition act_eqb (a b : act) : bool :=
  match a, b with Prep, Prep => true | Calc i, Calc j | Recv i, Recv j => (i =? j)%nat | _, _ => false end.
Lemma act_eqb_ok a b : act_eqb a b = true <-> a = b.
Proof. destruct a, b; cbn; rewrite ?Nat.eqb_eq; split; congruence. Qed.
Definition inb (a : act) (s : list act) : bool := existsb (act_eqb a) s.
Lemma inb_ok a s : inb a s = true <-> In a s.
Proof.
  unfold inb. rewrite existsb_exists. split.
  - intros (x & I & H). apply act_eqb_ok in H. subst x. exact I.
  - intros I. exists a. split; [exact I|]. apply act_eqb_ok. reflexivity.
Qed.
(** [seen] are the earlier events. *)
Fixpoint orderlyb (seen s : list act) : bool :=
  match s with
  | [] => true
  | a :: t => negb (inb a seen) && match a with Recv i => inb (Calc i) seen && inb Prep seen | _ => true end && orderlyb (a :: seen) t
  end.
Definition scheduleb (n : nat) (s : list act) : bool :=
  orderlyb [] s && inb Prep s && forallb (fun i => inb (Calc i) s && inb (Recv i) s) (seq 0 n) &&
  forallb (fun a => match a with Prep => true | Calc i | Recv i => (i <? n)%nat end) s.
Lemma orderlyb_nodup s : forall seen, orderlyb seen s = true -> NoDup s /\ (forall a, In a s -> ~ In a seen).
Proof.
  induction s as [|a t IH]; intros seen H; cbn [orderlyb] in H; [split; [constructor|intros a []]|].
  rewrite !andb_true_iff in H. destruct H as [[H1 _] H2]. apply negb_true_iff in H1. destruct (IH _ H2) as [N D].
  assert (Na : ~ In a seen) by (intros I; apply inb_ok in I; congruence).
  split.
  - constructor; [|exact N]. intros I. apply (D a I). left. reflexivity.
  - intros x [<-|I]; [exact Na|]. intros Q. apply (D x I). right. exact Q.
Qed.
Lemma orderlyb_recv s : forall seen l1 i l2, orderlyb seen s = true -> s = l1 ++ Recv i :: l2 -> In (Calc i) (seen ++ l1) /\ In Prep (seen ++ l1).
Proof.
  induction s as [|a t IH]; intros seen l1 i l2 H E; [destruct l1; discriminate|].
  cbn [orderlyb] in H. rewrite !andb_true_iff in H. destruct H as [[_ H1] H2]. destruct l1 as [|b l1]; cbn [app] in E; injection E as -> E.
  - apply andb_true_iff in H1 as [C P]. rewrite app_nil_r. split; apply inb_ok; assumption.
  - destruct (IH _ l1 i l2 H2 E) as [C P]. cbn [app] in C, P. split; apply in_or_app.
    + destruct C as [C|C]; [right; left; exact C|]. apply in_app_or in C as [C|C]; [left; exact C|right; right; exact C].
    + destruct P as [P|P]; [right; left; exact P|]. apply in_app_or in P as [P|P]; [left; exact P|right; right; exact P].
Qed.
Lemma scheduleb_ok n s : scheduleb n s = true -> valid_schedule n s.
Proof.
  unfold scheduleb. rewrite !andb_true_iff, !forallb_forall. intros [[[O P] M] B]. destruct (orderlyb_nodup _ _ O) as [N _].
  split; [|intros l1 i l2 E; apply (orderlyb_recv _ _ _ _ _ O E)].
  assert (ONE : forall dec a, In a s -> count_occ dec s a = 1%nat) by (intros dec a I; apply NoDup_count_occ'; assumption).
  assert (ZERO : forall dec a, ~ In a s -> count_occ dec s a = 0%nat) by (intros dec a I; apply count_occ_not_In; exact I).
  intros a. destruct a as [|i|i].
  - apply ONE, inb_ok, P.
  - destruct (Nat.ltb_spec i n) as [L|L].
    + apply ONE, inb_ok. specialize (M i ltac:(apply in_seq; lia)). apply andb_true_iff in M. apply M.
    + apply ZERO. intros I. specialize (B _ I). cbn in B. apply Nat.ltb_lt in B. lia.
  - destruct (Nat.ltb_spec i n) as [L|L].
    + apply ONE, inb_ok. specialize (M i ltac:(apply in_seq; lia)). apply andb_true_iff in M. apply M.
    + apply ZERO. intros I. specialize (B _ I). cbn in B. apply Nat.ltb_lt in B. lia.
Qed.

(** * C34 *)
(** Two points, five members, cutoff 1.  Fitness: 1/2 and the sum of the x coordinates.
    Child 1 moves the first point by 1/8, child 2 the second by 1/4, child 3 the first by
    1/16.  All are fitter than the base; the combined member takes the first point from
    child 1 (fitter than child 3) and the second from child 2. *)
Definition sum_of (pts : list npoint) : f64 := fold_left (fun s p => fadd s (nx p)) pts fhalf.
Definition sum_fit (pts : list npoint) : f64 := if flt f0 (sum_of pts) then sum_of pts else fhalf.
Definition summing : evaluator unit := Ev (fun _ _ pts _ => Some (tt, sum_fit pts)) (fun _ _ => Some tt) (fun _ => Some tt) (fun _ _ _ => Some tt) (fun _ _ _ => Some tt).
Lemma summing_functional : functional summing sum_fit.
Proof. intros pts f (e & i & log & e' & H). cbn in H. congruence. Qed.
Lemma summing_positive : positive summing.
Proof.
  intros pts f H. rewrite (summing_functional pts f H). unfold sum_fit. destruct (flt f0 (sum_of pts)) eqn:Q; [exact Q|reflexivity].
Qed.
Definition case_draws (i k : nat) : rdraw :=
  match i, k with
  | 1, 0 => RD f0 (f64_dy 5 (-3)) fhalf
  | 2, 1 => RD f0 (f64_dy 3 (-2)) fhalf
  | 3, 0 => RD f0 (f64_dy 9 (-4)) fhalf
  | _, _ => RD (f64_dy 3 (-2)) fhalf fhalf
  end%nat.
Definition case_mu : mutator := fun i pts => random_mutate fhalf f1 (case_draws i) pts.
Lemma case_mu_ok : mutator_ok case_mu.
Proof.
  apply (C30_random_ok fhalf f1 case_draws); [reflexivity|]. intros i k.
  assert (A : draw01 fhalf) by (apply draw01_bool; vm_compute; reflexivity).
  assert (B : draw01 (f64_dy 5 (-3))) by (apply draw01_bool; vm_compute; reflexivity).
  assert (C : draw01 (f64_dy 3 (-2))) by (apply draw01_bool; vm_compute; reflexivity).
  assert (D : draw01 (f64_dy 9 (-4))) by (apply draw01_bool; vm_compute; reflexivity).
  unfold case_draws. destruct i as [|[|[|[|i]]]], k as [|[|k]]; cbn [rd_x rd_y]; split; assumption.
Qed.
Definition quarter : f64 := f64_dy 1 (-2).
Definition case_groups : list (list npoint) := repeat [NP quarter fhalf; NP quarter f1] 5.
Lemma case_groups_ok : Forall (fun g => length g = 2%nat /\ Forall pt_in_unit g) case_groups.
Proof.
  apply Forall_forall. intros g Hg. apply repeat_spec in Hg. subst g. split; [reflexivity|].
  constructor; [|constructor; [|constructor]]; apply unit_bool; try split; vm_compute; reflexivity.
Qed.
(** In the first schedule child 3 is handled before child 1, in the second after it. *)
Definition case_s1 : list act := [Calc 3; Calc 0; Prep; Recv 0; Calc 1; Recv 3; Calc 2; Recv 1; Recv 2].
Definition case_s2 : list act := [Calc 2; Calc 1; Calc 0; Calc 3; Prep; Recv 2; Recv 0; Recv 1; Recv 3].
Definition case_sort : list (nat * nat) := [(0, 4); (1, 2)]%nat.
Definition at_x (v : f64) (p : npoint) : bool := fle v (nx p) && fle (nx p) v.
(** The fittest member has the first point at 3/8 and the second at 1/2. *)
Definition combinedb (g : mgen unit) : bool :=
  sortedb (c_fits (g_core g)) &&
  match nth 0 (members (g_core g)) [] with [p; q] => at_x (f64_dy 3 (-3)) p && at_x fhalf q | _ => false end.
Definition case_run : bool :=
  match new_genetic summing 1 case_groups tt case_s1 [] with
  | Some (g0, _) =>
      sortedb (c_fits (g_core g0)) &&
      match genetic_step summing 1 case_mu case_s1 case_sort g0, genetic_step summing 1 case_mu case_s2 case_sort g0 with
      | Some (g1, _), Some (g2, _) => combinedb g1 && combinedb g2
      | _, _ => false
      end
  | None => false end.
Example C34_case : exists g0 g1 r1 g2 r2, genetic_history summing 1 5 2 g0 /\
  genetic_step summing 1 case_mu case_s1 case_sort g0 = Some (g1, r1) /\ genetic_step summing 1 case_mu case_s2 case_sort g0 = Some (g2, r2) /\
  valid_schedule 4 case_s1 /\ valid_schedule 4 case_s2 /\ combinedb g1 = true /\ combinedb g2 = true.
Proof.
  assert (V1 : valid_schedule 4 case_s1) by (apply scheduleb_ok; vm_compute; reflexivity).
  assert (V2 : valid_schedule 4 case_s2) by (apply scheduleb_ok; vm_compute; reflexivity).
  assert (H : case_run = true) by (vm_compute; reflexivity). unfold case_run in H.
  destruct (new_genetic summing 1 case_groups tt case_s1 []) as [[g0 r0]|] eqn:E0; [|discriminate].
  apply andb_true_iff in H as [S0 H].
  destruct (genetic_step summing 1 case_mu case_s1 case_sort g0) as [[g1 r1]|] eqn:E1; [|discriminate].
  destruct (genetic_step summing 1 case_mu case_s2 case_sort g0) as [[g2 r2]|] eqn:E2; [|discriminate].
  apply andb_true_iff in H as [H1 H2]. exists g0, g1, r1, g2, r2. split.
  { apply (gh_init summing 1 5 2 case_groups tt case_s1 [] g0 r0); [reflexivity|apply case_groups_ok|exact V1|exact E0|apply sortedb_ok, S0]. }
  repeat (split; [first [reflexivity|assumption]|]). exact H2.
Qed.

(** * More bases than members *)
(** If cutoff exceeds the number of members, Step of both algorithms panics. *)
Section Limit.
Context {E : Type} (ev : evaluator E).
Lemma copy_pop i j (c c' : core E) : copy_member i j c = Some c' -> (j < length (c_pop c))%nat /\ c_pop c' = c_pop c.
Proof.
  unfold copy_member. destruct (nth_error (c_newpop c) i) as [a|]; [|discriminate].
  destruct (nth_error (c_pop c) j) as [b|] eqn:Q; [|discriminate]. destruct (put i [] (c_muts c)) as [m|]; [|discriminate].
  destruct (buf_set (c_store c) a b); [|discriminate]. intros H. injection H as <-. split; [|reflexivity].
  apply nth_error_Some. congruence.
Qed.
Lemma keep_bases_short k : forall i (c : core E), (length (c_pop c) < i + k)%nat -> (i <= length (c_pop c))%nat -> keep_bases k i c = None.
Proof.
  induction k as [|k IH]; intros i c L B; [lia|]. cbn [keep_bases].
  destruct (copy_member i i c) as [c'|] eqn:Q; [|reflexivity]. apply copy_pop in Q as [J P].
  apply IH; rewrite P; lia.
Qed.
Theorem C30_many_bases_panic cutoff mu s sw (c : core E) : (length (c_pop c) < cutoff)%nat ->
  simple_step ev cutoff mu s sw c = None /\ (forall ben, genetic_step ev cutoff mu s sw (MGen c ben) = None).
Proof.
  intros L. assert (K : forall lim, new_generation ev mu cutoff lim c = None) by (intros lim; unfold new_generation; rewrite keep_bases_short by lia; reflexivity).
  split; [unfold simple_step; rewrite K; reflexivity|]. intros ben. unfold genetic_step. cbn [g_core g_ben]. rewrite K. reflexivity.
Qed.
End Limit.
(** Such a state exists: NewSimple accepts the two groups whatever the cutoff is. *)
Example C30_many_bases_case : exists c r, new_simple toy (ex_groups 2) tt ex_sched [] = Some (c, r) /\ simple_step toy 3 ex_mu ex_sched [] c = None.
Proof.
  assert (H : match new_simple toy (ex_groups 2) tt ex_sched [] with Some (c, _) => (length (c_pop c) <? 3)%nat | None => false end = true) by (vm_compute; reflexivity).
  destruct (new_simple toy (ex_groups 2) tt ex_sched []) as [[c r]|]; [|discriminate]. apply Nat.ltb_lt in H.
  exists c, r. split; [reflexivity|]. apply (C30_many_bases_panic toy 3 ex_mu ex_sched [] c H).
Qed.
Print Assumptions C30_many_bases_panic.
