(** C35: gathering fitnesses terminates for every interleaving. *)
From Coq Require Import List Arith Lia Permutation Bool.
From Verif Require Import M_Algo M_Chan L_Algo2.
Import ListNotations.

Definition act_dec : forall x y : act, {x = y} + {x <> y}.
Proof. decide equality; apply Nat.eq_dec. Defined.

Definition submitted n ph := match ph with Submitting i => i | _ => n end.
Definition received (t : list act) : list nat := flat_map (fun a => match a with Recv i => [i] | _ => [] end) t.
Definition calcs (t : list act) : list nat := flat_map (fun a => match a with Calc i => [i] | _ => [] end) t.
Definition preps (t : list act) : nat := length (filter (fun a => match a with Prep => true | _ => false end) t).

Record cinv (n : nat) (s : cst) : Prop := {
  ci_le : submitted n (phase s) <= n;
  ci_tasks : Permutation (pend s ++ ready s ++ queue s ++ received (trace s)) (seq 0 (submitted n (phase s)));
  ci_calcs : Permutation (calcs (trace s)) (ready s ++ queue s ++ received (trace s));
  ci_phase : match phase s with
             | Submitting _ => received (trace s) = [] /\ closed s = false /\ preps (trace s) = 0
             | Receiving d => length (received (trace s)) = d /\ closed s = (d =? n) && negb (n =? 0) /\ preps (trace s) = 1
             | Finished => length (received (trace s)) = n /\ closed s = true /\ preps (trace s) = 1 /\ queue s = [] /\ n <> 0
             end;
  ci_order : forall l1 i l2, trace s = l1 ++ Recv i :: l2 -> In (Calc i) l1 /\ In Prep l1 }.

Lemma received_app t u : received (t ++ u) = received t ++ received u.
Proof. apply flat_map_app. Qed.
Lemma calcs_app t u : calcs (t ++ u) = calcs t ++ calcs u.
Proof. apply flat_map_app. Qed.
Lemma preps_app t u : preps (t ++ u) = preps t + preps u.
Proof. unfold preps. rewrite filter_app, app_length. reflexivity. Qed.
Lemma In_calcs t i : In i (calcs t) -> In (Calc i) t.
Proof. intros H. apply in_flat_map in H as (a & Ha & Hi). destruct a; cbn in Hi; try tauto. destruct Hi as [->|[]]. exact Ha. Qed.
Lemma preps_In t : preps t <> 0 -> In Prep t.
Proof.
  unfold preps. induction t as [|a t IH]; cbn; [lia|]. destruct a; cbn; [left; reflexivity| |]; intros H; right; apply IH, H.
Qed.

Lemma order_snoc t a : (forall l1 i l2, t = l1 ++ Recv i :: l2 -> In (Calc i) l1 /\ In Prep l1) ->
  (forall i, a = Recv i -> In (Calc i) t /\ In Prep t) ->
  forall l1 i l2, t ++ [a] = l1 ++ Recv i :: l2 -> In (Calc i) l1 /\ In Prep l1.
Proof.
  intros Ho Ha l1 i l2 Heq. destruct (list_eq_dec act_dec l2 []) as [->|Hne].
  - apply app_inj_tail in Heq as [<- E]. apply (Ha i E).
  - apply exists_last in Hne as (l3 & b & ->). replace (l1 ++ Recv i :: l3 ++ [b]) with ((l1 ++ Recv i :: l3) ++ [b]) in Heq by (rewrite <- app_assoc; reflexivity).
    apply app_inj_tail in Heq as [Heq _]. apply (Ho l1 i l3 Heq).
Qed.

Lemma cinv_start n : cinv n cstart.
Proof.
  constructor; cbn; try lia; try apply Permutation_refl; [repeat split|]. intros l1 i l2 H. destruct l1; discriminate.
Qed.

Lemma cinv_step n cap s s' : cinv n s -> cstep n cap s s' -> cinv n s'.
Proof.
  intros [L1 T1 C1 P1 O1] St. destruct St; cbn [phase pend ready queue closed trace submitted] in *.
  - constructor; cbn [phase pend ready queue closed trace submitted]; [lia| |exact C1|exact P1|exact O1].
    rewrite seq_S. cbn [plus]. rewrite <- app_assoc. apply Permutation_trans with (2 := Permutation_app_tail [i] T1).
    rewrite <- !app_assoc. apply Permutation_app_head. cbn [app]. rewrite !app_assoc. apply Permutation_cons_append.
  - assert (i = n) by lia. subst i. destruct P1 as (P1 & P2 & P3).
    constructor; cbn [phase pend ready queue closed trace submitted]; rewrite ?received_app, ?calcs_app, ?preps_app; cbn [received calcs preps flat_map filter app length]; rewrite ?app_nil_r; try assumption.
    + rewrite P1, P3. cbn. repeat split. rewrite P2. destruct n; reflexivity.
    + apply order_snoc; [exact O1|discriminate].
  - constructor; cbn [phase pend ready queue closed trace submitted]; rewrite ?received_app, ?calcs_app, ?preps_app; cbn [received calcs flat_map app]; rewrite ?app_nil_r; try assumption.
    + apply Permutation_trans with (2 := T1). rewrite <- !app_assoc. apply Permutation_app_head. cbn [app].
      apply Permutation_trans with (i :: p2 ++ r ++ q ++ received t); [|apply Permutation_refl].
      rewrite (app_assoc p2 r), (app_assoc p2 r). rewrite <- Permutation_middle. apply Permutation_refl.
    + rewrite <- !app_assoc. cbn [app]. apply Permutation_trans with (i :: calcs t); [apply Permutation_sym, Permutation_cons_append|].
      apply Permutation_trans with (i :: r ++ q ++ received t); [apply perm_skip, C1|apply Permutation_middle].
    + change (preps [Calc i]) with 0. rewrite Nat.add_0_r. exact P1.
    + apply order_snoc; [exact O1|discriminate].
  - constructor; cbn [phase pend ready queue closed trace submitted]; try assumption.
    + apply Permutation_trans with (2 := T1). apply Permutation_app_head. rewrite <- !app_assoc. apply Permutation_app_head. cbn [app].
      rewrite (app_assoc r2 q). rewrite (app_assoc r2 q). rewrite <- Permutation_middle. apply Permutation_refl.
    + apply Permutation_trans with (1 := C1). rewrite <- !app_assoc. apply Permutation_app_head. cbn [app].
      rewrite (app_assoc r2 q). rewrite (app_assoc r2 q). rewrite <- Permutation_middle. apply Permutation_refl.
    + destruct ph; try exact P1. destruct P1 as (_ & P1 & _). discriminate.
  - destruct P1 as (P1 & P2 & P3).
    constructor; cbn [phase pend ready queue closed trace submitted]; rewrite ?received_app, ?calcs_app, ?preps_app; cbn [received calcs preps flat_map filter app length]; rewrite ?app_nil_r; try assumption.
    + apply Permutation_trans with (2 := T1). do 2 apply Permutation_app_head. cbn [app]. rewrite (app_assoc q). apply Permutation_sym, Permutation_cons_append.
    + apply Permutation_trans with (1 := C1). apply Permutation_app_head. cbn [app]. rewrite (app_assoc q). apply Permutation_cons_append.
    + rewrite app_length. cbn [length]. change (preps [Recv i]) with 0. repeat split; try lia. destruct (Nat.eqb_spec (S d) n); [lia|reflexivity].
    + apply order_snoc; [exact O1|]. intros j Hj. inversion Hj; subst. split; [|apply preps_In; lia].
      apply In_calcs. apply (Permutation_in _ (Permutation_sym C1)). apply in_or_app. right. left. reflexivity.
  - destruct P1 as (P1 & P2 & P3).
    constructor; cbn [phase pend ready queue closed trace submitted]; rewrite ?received_app, ?calcs_app, ?preps_app; cbn [received calcs preps flat_map filter app length]; rewrite ?app_nil_r; try assumption.
    + apply Permutation_trans with (2 := T1). do 2 apply Permutation_app_head. cbn [app]. rewrite (app_assoc q). apply Permutation_sym, Permutation_cons_append.
    + apply Permutation_trans with (1 := C1). apply Permutation_app_head. cbn [app]. rewrite (app_assoc q). apply Permutation_cons_append.
    + rewrite app_length. cbn [length]. change (preps [Recv i]) with 0. repeat split; try lia. destruct (Nat.eqb_spec (S d) n); [|lia]. destruct (Nat.eqb_spec n 0); [lia|reflexivity].
    + apply order_snoc; [exact O1|]. intros j Hj. inversion Hj; subst. split; [|apply preps_In; lia].
      apply In_calcs. apply (Permutation_in _ (Permutation_sym C1)). apply in_or_app. right. left. reflexivity.
  - exfalso. destruct P1 as (P1 & P2 & P3). symmetry in P2. apply andb_true_iff in P2 as [P2 P4]. apply Nat.eqb_eq in P2. subst d.
    apply Permutation_length in T1. rewrite !app_length, seq_length in T1. cbn [length] in T1. lia.
  - destruct P1 as (P1 & P2 & P3). symmetry in P2. apply andb_true_iff in P2 as [P2 P4]. apply Nat.eqb_eq in P2. subst d.
    constructor; cbn [phase pend ready queue closed trace submitted]; try assumption. repeat split; try assumption. intros ->. discriminate.
Qed.

Lemma csteps_inv n cap k s : csteps n cap k s -> cinv n s.
Proof. induction 1 as [|k s s' H IH St]; [apply cinv_start|apply (cinv_step n cap s s' IH St)]. Qed.

(** Every step makes progress. *)
Definition cmeasure (n : nat) (s : cst) : nat :=
  4 * (n - match phase s with Submitting i => i | _ => n end) + 3 * length (pend s) + 2 * length (ready s) + length (queue s) +
  match phase s with Submitting _ => 2 | Receiving _ => 1 | Finished => 0 end.
Lemma cmeasure_step n cap s s' : cstep n cap s s' -> cmeasure n s' < cmeasure n s.
Proof. intros St. destruct St; unfold cmeasure; cbn [phase pend ready queue]; rewrite ?app_length; cbn [length]; lia. Qed.

(** No goroutine panics: no send on a closed channel, no second close. *)
Theorem C35_no_panic n cap k s : csteps n cap k s -> ~ panics n s.
Proof.
  intros H. apply csteps_inv in H as [L1 T1 C1 P1 O1]. intros [Hc Hp]. destruct s as [ph p r q cl t]. cbn [phase pend ready queue closed trace submitted] in *. subst cl.
  assert (Hfull : length (received t) = n -> ph <> Finished \/ q = [] -> submitted n ph = n -> ready {| phase := ph; pend := p; ready := r; queue := q; closed := true; trace := t |} = [] /\ q = []).
  { intros Hr _ Hs. apply Permutation_length in T1. rewrite !app_length, seq_length, Hs in T1. cbn [ready]. destruct r, q; cbn [length] in T1; try (exfalso; lia). auto. }
  destruct ph as [i|d|].
  - destruct P1 as (_ & P1 & _). discriminate.
  - destruct P1 as (P1 & P2 & _). symmetry in P2. apply andb_true_iff in P2 as [P2 _]. apply Nat.eqb_eq in P2. subst d.
    destruct Hfull as [F1 F2]; [assumption|left; discriminate|reflexivity|]. cbn [ready] in F1. destruct Hp as [Hp|(d & i & q' & _ & Hq & _)]; [contradiction|congruence].
  - destruct P1 as (P1 & _ & _ & P2 & _). destruct Hfull as [F1 F2]; [assumption|right; assumption|reflexivity|]. cbn [ready] in F1.
    destruct Hp as [Hp|(d & i & q' & Hph & _)]; [contradiction|discriminate].
Qed.

(** No interleaving gets stuck before the loop is left... *)
Theorem C35_progress n cap k s : n <> 0 -> n <= cap -> csteps n cap k s -> phase s <> Finished -> exists s', cstep n cap s s'.
Proof.
  intros Hn Hcap H Hf. apply csteps_inv in H as [L1 T1 C1 P1 O1]. destruct s as [ph p r q cl t]. cbn [phase pend ready queue closed trace submitted] in *.
  destruct ph as [i|d|]; [|clear Hf|contradiction].
  - destruct (Nat.lt_ge_cases i n); eexists; [apply st_submit; assumption|apply st_prepare; assumption].
  - destruct P1 as (P1 & P2 & P3). destruct (Nat.eqb_spec n 0); [contradiction|]. rewrite andb_true_r in P2.
    destruct q as [|i q].
    + destruct (Nat.eqb_spec d n) as [->|Hd].
      * subst cl. eexists. apply st_end.
      * subst cl. destruct r as [|i r]; [destruct p as [|i p]|].
        -- exfalso. apply Permutation_length in T1. rewrite !app_length, seq_length in T1. cbn [length submitted] in T1. lia.
        -- eexists. apply (st_calc n cap _ [] i p).
        -- eexists. apply (st_send n cap _ p [] i r). cbn [length]. lia.
    + destruct cl.
      * exfalso. symmetry in P2. apply Nat.eqb_eq in P2. apply Permutation_length in T1. rewrite !app_length, seq_length in T1. cbn [length submitted] in T1. lia.
      * destruct (Nat.eq_dec (S d) n); eexists; [apply st_recv_close; assumption|apply st_recv; assumption].
Qed.

(** ... and none goes on for more than 4n+2 steps. *)
Theorem C35_terminates n cap k s : csteps n cap k s -> k <= 4 * n + 2.
Proof.
  intros H. assert (Hm : k + cmeasure n s <= 4 * n + 2).
  { induction H as [|k s s' H IH St]; [unfold cmeasure; cbn; lia|]. pose proof (cmeasure_step n cap s s' St). lia. }
  lia.
Qed.

(** When the loop is left, exactly one message per member was handled, each after its
    calculation and after Prepare; nothing is left running.  The events form a
    schedule in the sense of [valid_schedule], so the theorems about Step cover them. *)
Theorem C35_all_received n cap k s : csteps n cap k s -> phase s = Finished ->
  pend s = [] /\ ready s = [] /\ queue s = [] /\ closed s = true /\
  Permutation (received (trace s)) (seq 0 n) /\ valid_schedule n (trace s).
Proof.
  intros H Hf. apply csteps_inv in H as [L1 T1 C1 P1 O1]. destruct s as [ph p r q cl t]. cbn [phase pend ready queue closed trace submitted] in *. subst ph.
  destruct P1 as (P1 & P2 & P3 & P4 & _). subst q. cbn [submitted app] in *.
  assert (Hpr : p = [] /\ r = []).
  { apply Permutation_length in T1. rewrite !app_length, seq_length, P1 in T1. destruct p, r; cbn [length] in T1; try (exfalso; lia). auto. }
  destruct Hpr as [-> ->]. cbn [app] in *. split; [reflexivity|]. split; [reflexivity|]. split; [reflexivity|]. split; [exact P2|]. split; [exact T1|].
  assert (HC : Permutation (calcs t) (seq 0 n)) by (eapply Permutation_trans; [exact C1|exact T1]).
  assert (Hcount : forall (l : list nat) i, Permutation l (seq 0 n) -> count_occ Nat.eq_dec l i = if i <? n then 1 else 0).
  { intros l i HP. pose proof (Permutation_NoDup (Permutation_sym HP) (seq_NoDup n 0)) as ND.
    destruct (Nat.ltb_spec i n) as [Hi|Hi].
    - apply (proj1 (NoDup_count_occ' Nat.eq_dec l) ND). apply (Permutation_in _ (Permutation_sym HP)), in_seq. lia.
    - apply count_occ_not_In. intros Hin. apply (Permutation_in _ HP), in_seq in Hin. lia. }
  split; [|exact O1]. intros a.
  assert (Hgen : forall dec, (match a with Prep => preps t | Calc i => count_occ Nat.eq_dec (calcs t) i | Recv i => count_occ Nat.eq_dec (received t) i end) = count_occ dec t a).
  { intros dec. clear. induction t as [|b t IH]; [destruct a; reflexivity|]. unfold preps in *.
    destruct a, b; cbn [calcs received flat_map app filter length count_occ]; fold (calcs t) (received t);
      destruct (dec _ _) as [He|He]; try congruence; try discriminate He; try (exfalso; apply He; reflexivity);
      try (inversion He; subst); try (destruct (Nat.eq_dec _ _); try congruence; try (exfalso; apply He; congruence)); try exact IH; try (rewrite IH; reflexivity). }
  rewrite <- Hgen. destruct a as [|i|i]; [exact P3|apply Hcount, HC|apply Hcount, T1].
Qed.

(** With nothing to submit (modifiedGenetic with cutoff >= size, an empty population)
    the receive loop is never left. *)
Theorem C35_blocks_forever cap k s : csteps 0 cap k s -> phase s <> Finished /\
  (phase s = Receiving 0 -> forall s', ~ cstep 0 cap s s').
Proof.
  intros H. apply csteps_inv in H as [L1 T1 C1 P1 O1]. destruct s as [ph p r q cl t]. cbn [phase pend ready queue closed trace submitted] in *.
  assert (Hs : submitted 0 ph = 0) by (destruct ph; cbn in *; lia). rewrite Hs in T1. apply Permutation_sym, Permutation_nil in T1.
  apply app_eq_nil in T1 as [-> T1]. apply app_eq_nil in T1 as [-> T1]. apply app_eq_nil in T1 as [-> T1].
  assert (Hcl : ph <> Finished /\ cl = false).
  { destruct ph as [i|d|]; [destruct P1 as (_ & -> & _); split; [discriminate|reflexivity]|destruct P1 as (_ & -> & _); split; [discriminate|apply andb_false_r]|].
    destruct P1 as (_ & _ & _ & _ & P1). contradiction. }
  destruct Hcl as [Hph ->]. split; [exact Hph|]. intros -> s' St.
  inversion St; try lia.
  - match goal with H : _ ++ _ :: _ = [] |- _ => apply app_eq_nil in H as [_ H]; discriminate H end.
  - match goal with H : _ ++ _ :: _ = [] |- _ => apply app_eq_nil in H as [_ H]; discriminate H end.
Qed.

(** The state is reached: both algorithms with nothing to submit wait for ever. *)
Example C35_blocked cap : csteps 0 cap 1 (Cst (Receiving 0) [] [] [] false [Prep]).
Proof. eapply cs_S; [apply cs_0|]. apply st_prepare. lia. Qed.

(** Two members, the second finishing first and its message arriving before Prepare. *)
Example C35_case : csteps 2 2 10 (Cst Finished [] [] [] true [Calc 1; Prep; Calc 0; Recv 1; Recv 0]).
Proof.
  pose proof (cs_0 2 2) as H. unfold cstart in H.
  apply cs_S with (2 := st_submit 2 2 0 [] [] [] false [] ltac:(lia)) in H.
  apply cs_S with (2 := st_submit 2 2 1 [0] [] [] false [] ltac:(lia)) in H.
  apply cs_S with (2 := st_calc 2 2 (Submitting 2) [0] 1 [] [] [] false []) in H.
  apply cs_S with (2 := st_send 2 2 (Submitting 2) [0] [] 1 [] [] [Calc 1] ltac:(cbn; lia)) in H.
  apply cs_S with (2 := st_prepare 2 2 2 [0] [] [1] false [Calc 1] ltac:(lia)) in H.
  apply cs_S with (2 := st_calc 2 2 (Receiving 0) [] 0 [] [] [1] false [Calc 1; Prep]) in H.
  apply cs_S with (2 := st_recv 2 2 0 [] [0] 1 [] [Calc 1; Prep; Calc 0] ltac:(lia)) in H.
  apply cs_S with (2 := st_send 2 2 (Receiving 1) [] [] 0 [] [] [Calc 1; Prep; Calc 0; Recv 1] ltac:(cbn; lia)) in H.
  apply cs_S with (2 := st_recv_close 2 2 1 [] [] 0 [] [Calc 1; Prep; Calc 0; Recv 1] ltac:(lia)) in H.
  apply cs_S with (2 := st_end 2 2 2 [] [] [Calc 1; Prep; Calc 0; Recv 1; Recv 0]) in H.
  exact H.
Qed.

Print Assumptions C35_no_panic.
Print Assumptions C35_progress.
Print Assumptions C35_terminates.
Print Assumptions C35_all_received.
Print Assumptions C35_blocks_forever.
