(** Proofs for normgeom / mutation / generator. *)
From Coq Require Import ZArith Reals List Bool Sorted Lia Lra.
From Flocq Require Import Core IEEE754.BinarySingleNaN.
From Verif Require Import GoNum FloatLemmas M_Norm S_Norm.
Import ListNotations.
Open Scope R_scope.

(* ---------------- C01 ---------------- *)

Lemma flt_fin_true x y : fin x -> fin y -> R64 x < R64 y -> flt x y = true.
Proof. intros. rewrite flt_R by assumption. now apply Rlt_bool_true. Qed.
Lemma flt_fin_false x y : fin x -> fin y -> R64 y <= R64 x -> flt x y = false.
Proof. intros. rewrite flt_R by assumption. now apply Rlt_bool_false. Qed.

Lemma constrain1_in v : in_unit v -> constrain1 v = v.
Proof.
  intros [Hf [H0 H1]]. unfold constrain1.
  rewrite (flt_fin_false f1 v) by (try exact f1_fin; try exact Hf; rewrite f1_R; lra).
  rewrite (flt_fin_false v f0) by (try exact f0_fin; try exact Hf; rewrite f0_R; lra).
  reflexivity.
Qed.
Lemma constrain1_above v : above_one v -> constrain1 v = f1.
Proof.
  intros [->|[Hf H]]; [reflexivity|]. unfold constrain1.
  rewrite (flt_fin_true f1 v) by (try exact f1_fin; try exact Hf; rewrite f1_R; lra). reflexivity.
Qed.
Lemma constrain1_below v : below_zero v -> constrain1 v = f0.
Proof.
  intros [->|[Hf H]]; [reflexivity|]. unfold constrain1.
  rewrite (flt_fin_false f1 v) by (try exact f1_fin; try exact Hf; rewrite f1_R; lra).
  rewrite (flt_fin_true v f0) by (try exact f0_fin; try exact Hf; rewrite f0_R; lra). reflexivity.
Qed.

Lemma trichotomy v : is_nan v = false -> in_unit v \/ above_one v \/ below_zero v.
Proof.
  intros Hn. destruct (is_finite v) eqn:Hf.
  - destruct (Rlt_le_dec 1 (B2R v)); [right; left; right; auto|].
    destruct (Rlt_le_dec (B2R v) 0); [right; right; right; auto|].
    left. split; [exact Hf|lra].
  - destruct v as [|s| |]; try discriminate. destruct s; [right; right; left; reflexivity|right; left; left; reflexivity].
Qed.

Lemma f1_in : in_unit f1. Proof. split; [reflexivity|]. pose proof f1_R as H. cbv beta in *. rewrite H. lra. Qed.
Lemma f0_in : in_unit f0. Proof. split; [reflexivity|]. pose proof f0_R as H. cbv beta in *. rewrite H. lra. Qed.

Lemma constrain1_unit v : is_nan v = false -> in_unit (constrain1 v).
Proof.
  intros H. destruct (trichotomy v H) as [I|[I|I]].
  - rewrite constrain1_in; exact I.
  - rewrite constrain1_above by exact I. exact f1_in.
  - rewrite constrain1_below by exact I. exact f0_in.
Qed.

Lemma constrain1_spec v :
  (is_nan v = false -> in_unit (constrain1 v)) /\
  (in_unit v -> constrain1 v = v) /\
  (above_one v -> in_unit (constrain1 v) /\ B2R (constrain1 v) = 1) /\
  (below_zero v -> constrain1 v = B754_zero false) /\
  (is_nan v = true -> constrain1 v = v).
Proof.
  split; [apply constrain1_unit|]. split; [apply constrain1_in|]. split; [|split].
  - intros H. rewrite constrain1_above by exact H. split; [exact f1_in|exact f1_R].
  - intros H. rewrite constrain1_below by exact H. reflexivity.
  - intros H. destruct v; try discriminate. reflexivity.
Qed.

(* ---------------- C03 ---------------- *)

Lemma upd_firstn {A} i (a : A) l : (i < length l)%nat -> firstn i l ++ a :: skipn (S i) l = upd i a l.
Proof.
  revert i; induction l as [|h t IH]; intros i H; cbn in H; [lia|].
  destruct i; cbn [firstn skipn upd app]; [reflexivity|]. f_equal. apply IH. lia.
Qed.

(** Generic shape of both Mutate loops. *)
Fixpoint mut_from (pick : nat -> bool) (move : nat -> npoint -> npoint) (i : nat) (pts : list npoint)
    : list npoint * list mut :=
  match pts with
  | [] => ([], [])
  | old :: rest =>
      let (rest', log) := mut_from pick move (S i) rest in
      if pick i then (move i old :: rest', Mut old (move i old) i :: log) else (old :: rest', log)
  end.

Lemma gaussian_mut rate amount d i pts :
  gaussian_from rate amount d i pts =
  mut_from (fun i => f32lt (gd_pick (d i)) rate)
    (fun i old => constrain (NP (fadd (nx old) (fmul (fmul (gd_x (d i)) amount) fhalf))
                                (fadd (ny old) (fmul (fmul (gd_y (d i)) amount) fhalf)))) i pts.
Proof. revert i; induction pts as [|p t IH]; intros i; [reflexivity|]. cbn [gaussian_from mut_from]. rewrite IH. reflexivity. Qed.

Lemma random_mut rate amount d i pts :
  random_from rate amount d i pts =
  mut_from (fun i => flt (rd_pick (d i)) rate)
    (fun i old => constrain (NP (fadd (nx old) (fmul (fsub (rd_x (d i)) fhalf) amount))
                                (fadd (ny old) (fmul (fsub (rd_y (d i)) fhalf) amount)))) i pts.
Proof. revert i; induction pts as [|p t IH]; intros i; [reflexivity|]. cbn [random_from mut_from]. rewrite IH. reflexivity. Qed.

Section MutFrom.
Variables (pick : nat -> bool) (move : nat -> npoint -> npoint).

Lemma mut_from_length i pts : length (fst (mut_from pick move i pts)) = length pts.
Proof.
  revert i; induction pts as [|p t IH]; intros i; [reflexivity|]. cbn [mut_from].
  specialize (IH (S i)). destruct (mut_from pick move (S i) t) as [r l]. cbn in IH.
  destruct (pick i); cbn; lia.
Qed.

Lemma mut_from_ge i pts : Forall (fun m => (i <= m_idx m)%nat) (snd (mut_from pick move i pts)).
Proof.
  revert i; induction pts as [|p t IH]; intros i; [constructor|]. cbn [mut_from].
  specialize (IH (S i)). destruct (mut_from pick move (S i) t) as [r l]. cbn in IH.
  assert (Forall (fun m => (i <= m_idx m)%nat) l) by (eapply Forall_impl; [|exact IH]; cbn; intros; lia).
  destruct (pick i); cbn; [constructor; [cbn; lia|]|]; assumption.
Qed.

Lemma mut_from_sorted i pts : StronglySorted lt (map m_idx (snd (mut_from pick move i pts))).
Proof.
  revert i; induction pts as [|p t IH]; intros i; [constructor|]. cbn [mut_from].
  specialize (IH (S i)). pose proof (mut_from_ge (S i) t) as G.
  destruct (mut_from pick move (S i) t) as [r l]. cbn in IH, G.
  destruct (pick i); cbn; [|exact IH]. constructor; [exact IH|].
  apply Forall_map. eapply Forall_impl; [|exact G]. cbn. intros; lia.
Qed.

Lemma mut_from_in i pts k :
  In k (map m_idx (snd (mut_from pick move i pts))) <-> (i <= k < i + length pts)%nat /\ pick k = true.
Proof.
  revert i; induction pts as [|p t IH]; intros i.
  - cbn. split; [tauto|lia].
  - cbn [mut_from length]. specialize (IH (S i)). destruct (mut_from pick move (S i) t) as [r l]. cbn in IH.
    destruct (pick i) eqn:E; cbn.
    + rewrite IH. split.
      * intros [<-|[H1 H2]]; split; try lia; assumption.
      * intros [H1 H2]. destruct (Nat.eq_dec i k); [left; assumption|right; split; [lia|assumption]].
    + rewrite IH. split; [intros [H1 H2]; split; [lia|assumption]|].
      intros [H1 H2]. split; [|assumption]. destruct (Nat.eq_dec i k); [subst; congruence|lia].
Qed.

Lemma mut_from_entry i pts m : In m (snd (mut_from pick move i pts)) ->
  (i <= m_idx m)%nat /\
  nth_error pts (m_idx m - i) = Some (m_old m) /\
  nth_error (fst (mut_from pick move i pts)) (m_idx m - i) = Some (m_new m).
Proof.
  revert i; induction pts as [|p t IH]; intros i; [intros []|]. cbn [mut_from].
  specialize (IH (S i)). destruct (mut_from pick move (S i) t) as [r l]. cbn in IH.
  assert (K : In m l -> (i <= m_idx m)%nat /\ (m_idx m - i = S (m_idx m - S i))%nat).
  { intros H. destruct (IH H) as [? _]. lia. }
  destruct (pick i); cbn.
  - intros [<-|H].
    + cbn. rewrite Nat.sub_diag. repeat split; auto.
    + destruct (K H) as [K1 K2]. rewrite K2. cbn. destruct (IH H) as (_ & ? & ?). auto.
  - intros H. destruct (K H) as [K1 K2]. rewrite K2. cbn. destruct (IH H) as (_ & ? & ?). auto.
Qed.

Lemma mut_from_frame i pts k : (i <= k)%nat -> ~ In k (map m_idx (snd (mut_from pick move i pts))) ->
  nth_error (fst (mut_from pick move i pts)) (k - i) = nth_error pts (k - i).
Proof.
  revert i; induction pts as [|p t IH]; intros i Hi H; [reflexivity|].
  cbn [mut_from] in *. specialize (IH (S i)).
  destruct (mut_from pick move (S i) t) as [r l]. cbn in IH.
  destruct (Nat.eq_dec i k) as [->|N].
  - rewrite Nat.sub_diag. destruct (pick k); cbn in *; [tauto|reflexivity].
  - replace (k - i)%nat with (S (k - S i)) by lia.
    destruct (pick i); cbn in *; apply IH; try lia; tauto.
Qed.

Lemma replay_cons {A B} (g : A) (f : B -> nat) (h : B -> A) (l : list B) t :
  Forall (fun m => (1 <= f m)%nat) l ->
  fold_left (fun s m => firstn (f m) s ++ h m :: skipn (S (f m)) s) l (g :: t) =
  g :: fold_left (fun s m => firstn (f m - 1) s ++ h m :: skipn (S (f m - 1)) s) l t.
Proof.
  intros F. revert t; induction F as [|m l Hm F IH]; intros t; [reflexivity|].
  cbn [fold_left]. rewrite <- IH. do 2 f_equal. destruct (f m) as [|k]; [lia|].
  cbn [firstn app]. rewrite !Nat.sub_0_r || (replace (S k - 1)%nat with k by lia). reflexivity.
Qed.

Lemma replay_ext {A B} (f g : B -> nat) (h : B -> A) (l : list B) s :
  (forall m, In m l -> f m = g m) ->
  fold_left (fun s m => firstn (f m) s ++ h m :: skipn (S (f m)) s) l s =
  fold_left (fun s m => firstn (g m) s ++ h m :: skipn (S (g m)) s) l s.
Proof.
  revert s; induction l as [|m l IH]; intros s H; [reflexivity|].
  cbn [fold_left]. rewrite (H m) by (left; reflexivity). apply IH. intros; apply H; right; assumption.
Qed.

Lemma mut_from_replay i pts :
  fold_left (fun g m => firstn (m_idx m - i) g ++ m_new m :: skipn (S (m_idx m - i)) g)
    (snd (mut_from pick move i pts)) pts = fst (mut_from pick move i pts).
Proof.
  revert i; induction pts as [|p t IH]; intros i; [reflexivity|]. cbn [mut_from].
  specialize (IH (S i)). pose proof (mut_from_ge (S i) t) as G.
  destruct (mut_from pick move (S i) t) as [r l]. cbn [fst snd] in IH, G.
  assert (K : forall q, fold_left (fun g m => firstn (m_idx m - i) g ++ m_new m :: skipn (S (m_idx m - i)) g) l (q :: t)
              = q :: r).
  { intros q. rewrite (replay_cons q (fun m => m_idx m - i)%nat m_new).
    - f_equal. rewrite <- IH. apply replay_ext. intros; lia.
    - eapply Forall_impl; [|exact G]. cbn. intros; lia. }
  destruct (pick i).
  - cbn [fst snd fold_left m_idx m_new]. rewrite Nat.sub_diag. cbn [firstn skipn app]. apply K.
  - cbn [fst snd]. apply K.
Qed.

Lemma mut_from_exact pts : exact_log pts (fst (mut_from pick move 0 pts)) (snd (mut_from pick move 0 pts)).
Proof.
  split.
  - apply mut_from_length.
  - apply mut_from_sorted.
  - intros m H. apply mut_from_entry in H. destruct H as (_ & A & B). rewrite Nat.sub_0_r in A, B. split; assumption.
  - intros i H. pose proof (mut_from_frame 0 pts i ltac:(lia) H) as E. rewrite Nat.sub_0_r in E. exact E.
  - pose proof (mut_from_replay 0 pts) as E. rewrite <- E. apply replay_ext. intros; lia.
Qed.

Lemma mut_from_inv (P : npoint -> Prop) i pts :
  (forall k p, pick k = true -> P p -> P (move k p)) -> Forall P pts ->
  Forall P (fst (mut_from pick move i pts)).
Proof.
  intros HP. revert i; induction pts as [|p t IH]; intros i H; [constructor|]. inversion H; subst.
  cbn [mut_from]. specialize (IH (S i)). destruct (mut_from pick move (S i) t) as [r l]. cbn in *.
  destruct (pick i) eqn:E; cbn; constructor; auto.
Qed.
End MutFrom.

Lemma gaussian_exact rate amount d pts :
  let r := gaussian_mutate rate amount d pts in
  exact_log pts (fst r) (snd r) /\
  forall i, In i (map m_idx (snd r)) <-> (i < length pts)%nat /\ f32lt (gd_pick (d i)) rate = true.
Proof.
  cbv zeta. unfold gaussian_mutate. rewrite gaussian_mut. split; [apply mut_from_exact|].
  intros i. rewrite mut_from_in. split; intros [? ?]; split; auto; lia.
Qed.
Lemma random_exact rate amount d pts :
  let r := random_mutate rate amount d pts in
  exact_log pts (fst r) (snd r) /\
  forall i, In i (map m_idx (snd r)) <-> (i < length pts)%nat /\ flt (rd_pick (d i)) rate = true.
Proof.
  cbv zeta. unfold random_mutate. rewrite random_mut. split; [apply mut_from_exact|].
  intros i. rewrite mut_from_in. split; intros [? ?]; split; auto; lia.
Qed.

(* ---------------- C04 ---------------- *)

Lemma SF_nan (x : f64) : is_nan x = true -> B2SF x = SpecFloat.S754_nan.
Proof. destruct x; try discriminate; reflexivity. Qed.

Lemma overflow_not_nan s : binary_overflow 53 1024 mode_NE s <> SpecFloat.S754_nan.
Proof. destruct s; discriminate. Qed.

Lemma fadd_not_nan x y : fin x -> is_nan y = false -> is_nan (fadd x y) = false.
Proof.
  intros Hx Hy. destruct (is_finite y) eqn:Fy.
  - pose proof (Bplus_correct 53 1024 _ _ mode_NE x y Hx Fy) as C.
    destruct (Rlt_bool _ _) in C.
    + destruct C as (_ & C & _). unfold fadd. destruct (Bplus _ _ _); try discriminate; reflexivity.
    + destruct C as [C _]. destruct (is_nan (fadd x y)) eqn:E; [|reflexivity].
      apply SF_nan in E. unfold fadd in E. rewrite E in C. destruct (overflow_not_nan (Bsign x)); auto.
  - destruct y as [|s| |]; try discriminate. destruct x; try discriminate; reflexivity.
Qed.

Lemma fmul_not_nan x y : fin x -> fin y -> is_nan (fmul x y) = false.
Proof.
  intros Hx Hy. pose proof (Bmult_correct 53 1024 _ _ mode_NE x y) as C.
  destruct (Rlt_bool _ _) in C.
  - destruct C as (_ & C & _). unfold fin in *. rewrite Hx, Hy in C. unfold fmul.
    destruct (Bmult _ _ _); try discriminate; reflexivity.
  - destruct (is_nan (fmul x y)) eqn:E; [|reflexivity].
    apply SF_nan in E. unfold fmul in E. rewrite E in C. destruct (overflow_not_nan (xorb (Bsign x) (Bsign y))); auto.
Qed.

Lemma fmul_half_not_nan x : is_nan x = false -> is_nan (fmul x fhalf) = false.
Proof.
  intros H. destruct (is_finite x) eqn:F; [apply fmul_not_nan; [exact F|reflexivity]|].
  destruct x as [|s| |]; try discriminate. reflexivity.
Qed.

Lemma move_unit p a b : pt_in_unit p -> is_nan a = false -> is_nan b = false ->
  pt_in_unit (constrain (NP (fadd (nx p) a) (fadd (ny p) b))).
Proof.
  intros [[Hx _] [Hy _]] Ha Hb. split; cbn; apply constrain1_unit, fadd_not_nan; assumption.
Qed.

Lemma gaussian_unit rate amount d pts :
  fin amount -> (forall i, fin (gd_x (d i)) /\ fin (gd_y (d i))) -> Forall pt_in_unit pts ->
  Forall pt_in_unit (fst (gaussian_mutate rate amount d pts)).
Proof.
  intros Ha Hd H. unfold gaussian_mutate. rewrite gaussian_mut. apply mut_from_inv; [|exact H].
  intros k p _ Hp. destruct (Hd k). apply move_unit; [exact Hp| |]; apply fmul_half_not_nan, fmul_not_nan; assumption.
Qed.

Lemma sub_half_fin v : draw01 v -> fin (fsub v fhalf) /\ Rabs (R64 (fsub v fhalf)) <= / 2.
Proof.
  intros [Hf [H0 H1]].
  assert (Hb : Rabs (R64 v - R64 fhalf) <= bpow radix2 (-1)).
  { rewrite fhalf_R. change (bpow radix2 (-1)) with (/2). apply Rabs_le. lra. }
  destruct (fsub_R v fhalf Hf eq_refl) as [A B].
  - eapply Rle_trans; [exact Hb|]. apply bpow_le; lia.
  - split; [exact A|]. rewrite B. apply (rnd_abs_le _ (-1)); [lia|exact Hb].
Qed.

Lemma random_unit rate amount d pts :
  fin amount -> (forall i, draw01 (rd_x (d i)) /\ draw01 (rd_y (d i))) -> Forall pt_in_unit pts ->
  Forall pt_in_unit (fst (random_mutate rate amount d pts)).
Proof.
  intros Ha Hd H. unfold random_mutate. rewrite random_mut. apply mut_from_inv; [|exact H].
  intros k p _ Hp. destruct (Hd k) as [H1 H2].
  apply move_unit; [exact Hp| |]; apply fmul_not_nan; try assumption; apply sub_half_fin; assumption.
Qed.

(* ---------------- C05 ---------------- *)

Lemma random_points_ok n d : (0 <= n)%Z -> (forall i, draw01 (fst (d i)) /\ draw01 (snd (d i))) ->
  Z.of_nat (length (random_points n d)) = n /\ Forall pt_in_unit (random_points n d).
Proof.
  intros Hn Hd. unfold random_points. rewrite map_length, seq_length. split; [lia|].
  apply Forall_map, Forall_forall. intros i _. destruct (Hd i) as [[? ?] [? ?]].
  split; (split; [assumption|]; cbn; lra).
Qed.

Lemma upd_length {A} i (a : A) l : length (upd i a l) = length l.
Proof. revert i; induction l; intros [|i]; cbn; auto. Qed.
Lemma upd_Forall {A} (P : A -> Prop) i a l : P a -> Forall P l -> Forall P (upd i a l).
Proof. intros Ha H. revert i; induction H; intros [|i]; cbn; constructor; auto. Qed.
Lemma upd_nth {A} i (a : A) l j :
  nth_error (upd i a l) j = if Nat.eqb i j then (if (i <? length l)%nat then Some a else None) else nth_error l j.
Proof.
  revert i j; induction l as [|h t IH]; intros [|i] [|j]; cbn; try reflexivity.
  - now destruct (Nat.eqb i j).
  - rewrite IH. reflexivity.
Qed.

Definition sdraw_ok (n : nat) (d : sdraw) : Prop := (sd_i d < n)%nat /\ draw01 (sd_x d) /\ draw01 (sd_y d).

Lemma spaced_iter_ok temp d pts : in_unit temp -> sdraw_ok (length pts) d -> Forall pt_in_unit pts ->
  exists pts', spaced_iter temp d pts = Some pts' /\ length pts' = length pts /\ Forall pt_in_unit pts'.
Proof.
  intros [Ht _] (Hi & Hx & Hy) F. unfold spaced_iter.
  destruct (nth_error pts (sd_i d)) as [p|] eqn:E; [|apply nth_error_None in E; lia].
  eexists. split; [reflexivity|].
  assert (Hp : pt_in_unit p). { rewrite Forall_forall in F. apply F. eapply nth_error_In; eassumption. }
  destruct (flt _ _).
  - rewrite upd_length. split; [reflexivity|]. apply upd_Forall; [|exact F].
    apply move_unit; [exact Hp| |]; apply fmul_not_nan; try assumption; apply sub_half_fin; assumption.
  - split; [reflexivity|exact F].
Qed.

Lemma fmul_unit a b : in_unit a -> in_unit b -> in_unit (fmul a b).
Proof.
  intros [Ha [Ha0 Ha1]] [Hb [Hb0 Hb1]].
  assert (P : 0 <= B2R a * B2R b <= 1) by nra.
  destruct (fmul_R a b Ha Hb) as [F E].
  - rewrite Rabs_pos_eq by lra. eapply Rle_trans with (bpow radix2 0); [change (bpow radix2 0) with 1; lra|apply bpow_le; lia].
  - split; [exact F|]. rewrite E. split.
    + rewrite <- rnd_0. apply rnd_le. lra.
    + replace 1 with (rnd 1) by (apply (rnd_Z 1); lia). apply rnd_le. lra.
Qed.

Lemma spaced_loop_ok dec ds : in_unit dec -> forall temp pts, in_unit temp -> Forall pt_in_unit pts ->
  Forall (sdraw_ok (length pts)) ds ->
  exists pts', spaced_loop dec temp ds pts = Some pts' /\ length pts' = length pts /\ Forall pt_in_unit pts'.
Proof.
  intros Hd. induction ds as [|d ds IH]; intros temp pts Ht Hp Hds.
  - exists pts. repeat split; auto.
  - inversion Hds; subst. cbn [spaced_loop].
    destruct (spaced_iter_ok temp d pts Ht) as (p1 & E & L & F); [assumption|assumption|].
    rewrite E. destruct (IH (fmul temp dec) p1) as (p2 & E2 & L2 & F2).
    + apply fmul_unit; assumption.
    + exact F.
    + rewrite L; assumption.
    + exists p2. rewrite E2. repeat split; auto. congruence.
Qed.

Lemma spaced_generate_ok dec n init ds : (1 <= n)%Z -> in_unit dec ->
  (forall i, draw01 (fst (init i)) /\ draw01 (snd (init i))) ->
  Forall (sdraw_ok (Z.to_nat n)) ds ->
  exists pts, spaced_generate dec n init ds = Some pts /\ Z.of_nat (length pts) = n /\ Forall pt_in_unit pts.
Proof.
  intros Hn Hd Hi Hds. destruct (random_points_ok n init ltac:(lia) Hi) as [L F].
  unfold spaced_generate. destruct ds as [|d ds]; [eauto|].
  destruct (Z.leb_spec n 0); [lia|].
  destruct (spaced_loop_ok dec (d :: ds) Hd f1 (random_points n init) f1_in F) as (p & E & L2 & F2).
  - replace (length (random_points n init)) with (Z.to_nat n) by lia. exact Hds.
  - exists p. repeat split; auto. congruence.
Qed.

(* ---------------- C06 ---------------- *)

Lemma fsub_unit a b : in_unit a -> in_unit b -> fin (fsub a b) /\ Rabs (R64 (fsub a b)) <= 1.
Proof.
  intros [Ha [Ha0 Ha1]] [Hb [Hb0 Hb1]].
  assert (Hab : Rabs (R64 a - R64 b) <= bpow radix2 0).
  { change (bpow radix2 0) with 1. apply Rabs_le. lra. }
  destruct (fsub_R a b Ha Hb) as [F E].
  - eapply Rle_trans; [exact Hab|apply bpow_le; lia].
  - split; [exact F|]. rewrite E. apply (rnd_abs_le _ 0); [lia|exact Hab].
Qed.

Lemma fsq_unit a : fin a -> Rabs (R64 a) <= 1 -> in_unit (fmul a a).
Proof.
  intros Ha H. assert (P : 0 <= B2R a * B2R a <= 1).
  { apply Rabs_le_inv in H. cbv beta in H. nra. }
  destruct (fmul_R a a Ha Ha) as [F E].
  - rewrite Rabs_pos_eq by lra. eapply Rle_trans with (bpow radix2 0); [change (bpow radix2 0) with 1; lra|apply bpow_le; lia].
  - split; [exact F|]. rewrite E. split.
    + rewrite <- rnd_0. apply rnd_le. lra.
    + replace 1 with (rnd 1) by (apply (rnd_Z 1); lia). apply rnd_le. lra.
Qed.

Lemma fsqrt_fin x : fin x -> 0 <= R64 x -> fin (fsqrt x) /\ 0 <= R64 (fsqrt x).
Proof.
  intros Hx H0. destruct (Bsqrt_correct 53 1024 _ _ mode_NE x) as (A & B & _).
  unfold fsqrt, fin in *. split.
  - rewrite B. destruct x as [|s| |s m e ?]; try discriminate; [reflexivity|].
    destruct s; [|reflexivity]. exfalso. cbn in H0.
    assert (F2R (Float radix2 (Z.neg m) e) < 0) by (apply F2R_lt_0; reflexivity). 
    change (F2R (Float radix2 (Z.neg m) e)) with (F2R (Float radix2 (Z.neg m) e)) in *. lra.
  - rewrite A. cbn [round_mode]. fold (rnd (sqrt (B2R x))). rewrite <- rnd_0. apply rnd_le, sqrt_pos.
Qed.

Lemma dist_fin p q : pt_in_unit p -> pt_in_unit q -> fin (dist p q) /\ 0 <= R64 (dist p q).
Proof.
  intros [Px Py] [Qx Qy]. unfold dist. cbv zeta.
  destruct (fsub_unit _ _ Px Qx) as [Fx Bx]. destruct (fsub_unit _ _ Py Qy) as [Fy By].
  destruct (fsq_unit _ Fx Bx) as [Sx [Sx0 Sx1]]. destruct (fsq_unit _ Fy By) as [Sy [Sy0 Sy1]].
  destruct (fadd_R _ _ Sx Sy) as [Fa Ea].
  - rewrite Rabs_pos_eq by lra. eapply Rle_trans with (bpow radix2 1); [change (bpow radix2 1) with 2; lra|apply bpow_le; lia].
  - apply fsqrt_fin; [exact Fa|]. rewrite Ea. rewrite <- rnd_0. apply rnd_le. lra.
Qed.

Lemma fm1_R : R64 fm1 = -1. Proof. apply (of_Z_val (-1)). lia. Qed.

Lemma closest_loop_spec q g : pt_in_unit q -> Forall pt_in_unit g ->
  forall d, (d = fm1 \/ (fin d /\ 0 <= R64 d)) ->
  let r := closest_loop q d g in
  (r = d /\ (d <> fm1 \/ forall p, In p g -> npeq p q = true) /\
     (d <> fm1 -> forall p, In p g -> npeq p q = false -> R64 d <= R64 (dist p q))) \/
  (exists p, In p g /\ npeq p q = false /\ r = dist p q /\ (d <> fm1 -> R64 r <= R64 d) /\
     forall p', In p' g -> npeq p' q = false -> R64 r <= R64 (dist p' q)).
Proof.
  intros Hq Hg. induction Hg as [|p g Hp Hg IH]; intros d Hd; cbv zeta.
  - left. cbn. repeat split; auto; try (intros; contradiction).
  - cbn [closest_loop]. destruct (npeq p q) eqn:E.
    + destruct (IH d Hd) as [(A & B & C)|(p0 & A & B & C & D & F)].
      * left. repeat split; [exact A| |].
        -- destruct B as [B|B]; [left; exact B|right]. intros p1 [<-|H1]; auto.
        -- intros Hn p1 [<-|H1] Hne; [congruence|]. apply C; auto.
      * right. exists p0. repeat split; auto; [now right|]. intros p' [<-|H'] Hne; [congruence|]. auto.
    + destruct (dist_fin p q Hp Hq) as [Df D0].
      assert (Hd1 : feq d fm1 = true -> d = fm1).
      { intros H. destruct Hd as [Hd|[Hf H0]]; [exact Hd|]. rewrite feq_R in H by (exact Hf || reflexivity).
        rewrite fm1_R in H. destruct (Req_bool_spec (R64 d) (-1)); [lra|discriminate]. }
      assert (Hnm : dist p q <> fm1). { intros H. rewrite H, fm1_R in D0. lra. }
      cbv zeta. destruct (feq d fm1 || flt (dist p q) d) eqn:C.
      * right. assert (Hle : d <> fm1 -> R64 (dist p q) <= R64 d).
        { intros Hn. apply orb_true_iff in C. destruct C as [C|C]; [now apply Hd1 in C|].
          destruct Hd as [Hd|[Hf H0]]; [contradiction|]. rewrite flt_R in C by assumption.
          destruct (Rlt_bool_spec (R64 (dist p q)) (R64 d)); [lra|discriminate]. }
        destruct (IH (dist p q)) as [(A & B & C')|(p0 & A & B & C' & D & F)]; [right; split; assumption| |].
        -- exists p. repeat split; auto; [now left| |].
           ++ rewrite A. exact Hle.
           ++ rewrite A. intros p' [<-|H'] Hne; [lra|]. apply C'; auto.
        -- exists p0. repeat split; auto; [now right| |].
           ++ intros Hn. specialize (D Hnm). specialize (Hle Hn). lra.
           ++ intros p' [<-|H'] Hne; [apply D; exact Hnm|]. auto.
      * apply orb_false_iff in C. destruct C as [C1 C2].
        assert (Hn : d <> fm1). { intros ->. rewrite feq_R in C1 by reflexivity. rewrite fm1_R in C1.
          destruct (Req_bool_spec (-1) (-1)); [discriminate|lra]. }
        destruct Hd as [Hd|[Hf H0]]; [contradiction|].
        rewrite flt_R in C2 by assumption. destruct (Rlt_bool_spec (R64 (dist p q)) (R64 d)) as [|Hle]; [discriminate|].
        destruct (IH d (or_intror (conj Hf H0))) as [(A & B & C')|(p0 & A & B & C' & D & F)].
        -- left. repeat split; [exact A|left; exact Hn|]. intros _ p' [<-|H'] Hne; [exact Hle|]. auto.
        -- right. exists p0. repeat split; auto; [now right|]. intros p' [<-|H'] Hne; [|auto].
           specialize (D Hn). lra.
Qed.

Lemma closest_to_spec q g : pt_in_unit q -> Forall pt_in_unit g -> nearest_dist q g (closest_to q g).
Proof.
  intros Hq Hg. destruct (closest_loop_spec q g Hq Hg fm1 (or_introl eq_refl)) as [(A & B & _)|(p & A & B & C & _ & F)].
  - right. split; [|exact A]. destruct B as [B|B]; [now elim B|exact B].
  - left. exists p. repeat split; auto.
Qed.

Lemma nearest_fin q g d : pt_in_unit q -> Forall pt_in_unit g -> nearest_dist q g d -> fin d /\ -1 <= R64 d.
Proof.
  intros Hq Hg [(p & A & _ & -> & _)|[_ ->]].
  - rewrite Forall_forall in Hg. destruct (dist_fin p q (Hg _ A) Hq). split; [assumption|lra].
  - split; [reflexivity|]. rewrite fm1_R. lra.
Qed.

(** One iteration, [curr] the distance of the chosen point to its nearest different point. *)
Lemma spaced_iter_spec temp d pts p curr :
  in_unit temp -> draw01 (sd_x d) -> draw01 (sd_y d) -> Forall pt_in_unit pts ->
  nth_error pts (sd_i d) = Some p -> nearest_dist p pts curr ->
  exists pts', spaced_iter temp d pts = Some pts' /\
   (pts' = pts \/
    exists p', pts' = upd (sd_i d) p' pts /\ (forall q, In q pts -> npeq q p' = false -> R64 curr < R64 (dist q p'))
        /\ (exists q, In q pts /\ npeq q p' = false)).
Proof.
  intros Ht Hx Hy F E N. unfold spaced_iter. rewrite E. cbv zeta. eexists; split; [reflexivity|].
  assert (Hp : pt_in_unit p). { rewrite Forall_forall in F. apply F. eapply nth_error_In; eassumption. }
  set (p1 := constrain _).
  assert (Hp1 : pt_in_unit p1).
  { apply move_unit; [exact Hp| |]; apply fmul_not_nan; try (apply Ht); apply sub_half_fin; assumption. }
  pose proof (closest_to_spec p pts Hp F) as N0. pose proof (closest_to_spec p1 pts Hp1 F) as N1.
  destruct (nearest_fin _ _ _ Hp F N0) as [F0 G0]. destruct (nearest_fin _ _ _ Hp1 F N1) as [F1 G1].
  destruct (flt (closest_to p pts) (closest_to p1 pts)) eqn:C; [|left; reflexivity].
  right. exists p1. split; [reflexivity|].
  rewrite flt_R in C by assumption. destruct (Rlt_bool_spec (R64 (closest_to p pts)) (R64 (closest_to p1 pts))) as [L|]; [|discriminate].
  assert (Ec : R64 curr = R64 (closest_to p pts)).
  { destruct N as [(a & A1 & A2 & A3 & A4)|[A1 A2]]; destruct N0 as [(b & B1 & B2 & B3 & B4)|[B1 B2]].
    - rewrite B3 in *. rewrite A3 in *. specialize (A4 _ B1 B2). specialize (B4 _ A1 A2). lra.
    - rewrite (B1 _ A1) in A2. discriminate.
    - rewrite (A1 _ B1) in B2. discriminate.
    - congruence. }
  destruct N1 as [(a & A1 & A2 & A3 & A4)|[A1 A2]].
  - split; [|exists a; auto]. intros q Hq Hne. specialize (A4 q Hq Hne). rewrite Ec. lra.
  - rewrite A2, fm1_R in L. lra.
Qed.

Lemma nearest_unique q g d1 d2 : nearest_dist q g d1 -> nearest_dist q g d2 -> R64 d1 = R64 d2.
Proof.
  intros [(a & A1 & A2 & A3 & A4)|[A1 A2]] [(b & B1 & B2 & B3 & B4)|[B1 B2]].
  - rewrite B3 in *. rewrite A3 in *. specialize (A4 _ B1 B2). specialize (B4 _ A1 A2). lra.
  - rewrite (B1 _ A1) in A2. discriminate.
  - rewrite (A1 _ B1) in B2. discriminate.
  - congruence.
Qed.

Lemma spaced_iter_decides temp d pts p curr new :
  in_unit temp -> draw01 (sd_x d) -> draw01 (sd_y d) -> Forall pt_in_unit pts ->
  nth_error pts (sd_i d) = Some p ->
  let cand := constrain (NP (fadd (nx p) (fmul (fsub (sd_x d) fhalf) temp))
                            (fadd (ny p) (fmul (fsub (sd_y d) fhalf) temp))) in
  nearest_dist p pts curr -> nearest_dist cand pts new ->
  exists pts', spaced_iter temp d pts = Some pts' /\
    (R64 new <= R64 curr -> pts' = pts) /\
    (R64 curr < R64 new ->
       length pts' = length pts /\ nth_error pts' (sd_i d) = Some cand /\
       (forall j, j <> sd_i d -> nth_error pts' j = nth_error pts j) /\
       (forall q, In q pts -> npeq q cand = false -> R64 curr < R64 (dist q cand))).
Proof.
  intros Ht Hx Hy F E. cbv zeta. set (p1 := constrain _). intros N0 N1.
  unfold spaced_iter. rewrite E. cbv zeta. fold p1. eexists; split; [reflexivity|].
  assert (Hp : pt_in_unit p). { rewrite Forall_forall in F. apply F. eapply nth_error_In; eassumption. }
  assert (Hp1 : pt_in_unit p1).
  { apply move_unit; [exact Hp| |]; apply fmul_not_nan; try (apply Ht); apply sub_half_fin; assumption. }
  pose proof (closest_to_spec p pts Hp F) as M0. pose proof (closest_to_spec p1 pts Hp1 F) as M1.
  destruct (nearest_fin _ _ _ Hp F M0) as [F0 G0]. destruct (nearest_fin _ _ _ Hp1 F M1) as [F1 G1].
  rewrite (nearest_unique _ _ _ _ N0 M0), (nearest_unique _ _ _ _ N1 M1).
  rewrite flt_R by assumption. split; intros L.
  - rewrite Rlt_bool_false by exact L. reflexivity.
  - rewrite Rlt_bool_true by exact L. rewrite upd_length. split; [reflexivity|].
    assert (Hi : (sd_i d < length pts)%nat). { apply nth_error_Some. congruence. }
    split; [|split].
    + rewrite upd_nth, Nat.eqb_refl. destruct (Nat.ltb_spec (sd_i d) (length pts)); [reflexivity|lia].
    + intros j Hj. rewrite upd_nth. destruct (Nat.eqb_spec (sd_i d) j); [congruence|reflexivity].
    + intros q Hq Hne. destruct M1 as [(a & A1 & A2 & A3 & A4)|[A1 A2]].
      * specialize (A4 q Hq Hne). lra.
      * rewrite (A1 _ Hq) in Hne. discriminate.
Qed.
