(** The ear loop of Remove cuts ears in the sense of [L_Ear]. *)
From Coq Require Import ZArith List Bool Lia Psatz Permutation Reals Lra.
From Flocq Require Import Core Raux.
From Verif Require Import GoNum FloatLemmas M_Geom S_Geom M_Slice M_Raster S_Raster L_Raster1 L_Raster6 M_Delaunay S_Delaunay L_PMap L_Plane L_BW L_Ear L_Gap.
Import ListNotations.
Local Open Scope nat_scope.

Definition at_ (L : list point) (k : nat) : point := nth (k mod length L) L (Pt 0 0).

Lemma init_length p L : length (init_ears p L) = length L.
Proof. unfold init_ears. rewrite map_length, seq_length. reflexivity. Qed.
Lemma init_nth p L i : i < length L -> nth_error (init_ears p L) i = Some (mk_ear p (at_ L i) (at_ L (i + 1)) (at_ L (i + 2))).
Proof.
  intros H. unfold init_ears. erewrite map_nth_error; [|apply nth_error_nth' with (d := 0); rewrite seq_length; exact H].
  rewrite seq_nth by exact H. cbn [Nat.add]. unfold at_. rewrite Nat.add_0_r. reflexivity.
Qed.
Lemma at_nth L k : k < length L -> at_ L k = nth k L (Pt 0 0).
Proof. intros H. unfold at_. rewrite Nat.mod_small by exact H. reflexivity. Qed.
Lemma at_wrap L k : length L <= k < 2 * length L -> at_ L k = nth (k - length L) L (Pt 0 0).
Proof.
  intros H. unfold at_. replace k with (k - length L + 1 * length L) at 1 by lia. rewrite Nat.mod_add by lia. rewrite Nat.mod_small by lia. reflexivity.
Qed.
Lemma nth_drop {A} (l : list A) i j : i < length l -> nth_error (firstn i l ++ skipn (S i) l) j = nth_error l (if j <? i then j else S j).
Proof.
  intros H. destruct (Nat.ltb_spec j i) as [Q|Q].
  - rewrite nth_error_app1 by (rewrite firstn_length; lia). revert i j H Q. induction l as [|x l IH]; intros [|i] [|j] H Q; cbn in *; try lia; auto. apply IH; lia.
  - rewrite nth_error_app2 by (rewrite firstn_length; lia). rewrite firstn_length, Nat.min_l by lia. rewrite <- (firstn_skipn (S i) l) at 2.
    rewrite nth_error_app2 by (rewrite firstn_length; lia). rewrite firstn_length, Nat.min_l by lia. reflexivity.
Qed.

(** Where the corners of the shortened polygon come from. *)
Definition sigma (n i x : nat) : nat := if i + 1 <? n then (if x <=? i then x else x + 1) else (if x =? 0 then n - 1 else x).
Definition cutL (L : list point) (i : nat) : list point := map (fun x => nth (sigma (length L) i x) L (Pt 0 0)) (seq 0 (length L - 1)).
Lemma cutL_length L i : length (cutL L i) = length L - 1.
Proof. unfold cutL. rewrite map_length, seq_length. reflexivity. Qed.
Lemma cutL_nth L i x : x < length L - 1 -> nth x (cutL L i) (Pt 0 0) = nth (sigma (length L) i x) L (Pt 0 0).
Proof.
  intros H. unfold cutL. rewrite (nth_indep _ _ (nth (sigma (length L) i 0) L (Pt 0 0))) by (rewrite map_length, seq_length; lia).
  rewrite (map_nth (fun x => nth (sigma (length L) i x) L (Pt 0 0))). rewrite seq_nth by exact H. reflexivity.
Qed.
Lemma at_cut L i k : 4 <= length L -> k < 2 * (length L - 1) ->
  at_ (cutL L i) k = nth (sigma (length L) i (if k <? length L - 1 then k else k - (length L - 1))) L (Pt 0 0).
Proof.
  intros H Hk. destruct (Nat.ltb_spec k (length L - 1)) as [Q|Q].
  - rewrite at_nth by (rewrite cutL_length; lia). apply cutL_nth. exact Q.
  - rewrite at_wrap by (rewrite cutL_length; lia). rewrite cutL_length. apply cutL_nth. lia.
Qed.
Lemma at_val L k : k < 2 * length L -> at_ L k = nth (if k <? length L then k else k - length L) L (Pt 0 0).
Proof. intros H. destruct (Nat.ltb_spec k (length L)); [apply at_nth|apply at_wrap]; lia. Qed.

Lemma list_ext {A} (l l' : list A) : length l = length l' -> (forall j, j < length l -> nth_error l j = nth_error l' j) -> l = l'.
Proof.
  revert l'. induction l as [|x l IH]; intros [|y l'] E H; cbn in E; try lia; [reflexivity|]. f_equal.
  - specialize (H 0 ltac:(cbn; lia)). cbn in H. congruence.
  - apply IH; [lia|]. intros j Hj. apply (H (S j)). cbn. lia.
Qed.

Ltac noif t := lazymatch t with context[if _ then _ else _] => fail | _ => idtac end.
Ltac brk := repeat match goal with
  | |- context[?a <? ?b] => noif a; noif b; destruct (Nat.ltb_spec a b); try lia
  | |- context[?a =? ?b] => noif a; noif b; destruct (Nat.eqb_spec a b); try lia
  | |- context[?a <=? ?b] => noif a; noif b; destruct (Nat.leb_spec a b); try lia end; try lia.
Lemma cut_init p L i : 4 <= length L -> i < length L -> cut_ear p (init_ears p L) i = init_ears p (cutL L i).
Proof.
  intros H4 Hi. unfold cut_ear. cbv zeta. rewrite init_length. set (n := length L) in *.
  set (bf := if i =? 0 then n - 1 else i - 1). set (af := (i + 1) mod n).
  assert (AF : af = if i + 1 <? n then i + 1 else 0).
  { unfold af. destruct (Nat.ltb_spec (i + 1) n); [apply Nat.mod_small; lia|]. replace (i + 1) with n by lia. apply Nat.mod_same. lia. }
  assert (NB : bf < n /\ bf <> i) by (unfold bf; destruct (Nat.eqb_spec i 0); lia).
  assert (NA : af < n /\ af <> i /\ af <> bf) by (rewrite AF; unfold bf; destruct (Nat.ltb_spec (i + 1) n), (Nat.eqb_spec i 0); lia).
  assert (GET : forall k e, k < n -> nth k (init_ears p L) e = mk_ear p (at_ L k) (at_ L (k + 1)) (at_ L (k + 2))).
  { intros k e Hk. apply nth_error_nth. apply init_nth. exact Hk. }
  rewrite !(GET i _ Hi). set (e := mk_ear p (at_ L i) (at_ L (i + 1)) (at_ L (i + 2))). rewrite (GET bf _ (proj1 NB)).
  change (e_a (mk_ear p (at_ L bf) (at_ L (bf + 1)) (at_ L (bf + 2)))) with (at_ L bf). change (e_b (mk_ear p (at_ L bf) (at_ L (bf + 1)) (at_ L (bf + 2)))) with (at_ L (bf + 1)).
  change (e_c e) with (at_ L (i + 2)). change (e_a e) with (at_ L i).
  set (eb := mk_ear p (at_ L bf) (at_ L (bf + 1)) (at_ L (i + 2))). set (es1 := set_nth bf eb (init_ears p L)).
  assert (L1 : length es1 = n) by (unfold es1; rewrite set_nth_length, init_length; reflexivity).
  assert (E1 : nth_error es1 af = Some (mk_ear p (at_ L af) (at_ L (af + 1)) (at_ L (af + 2)))).
  { unfold es1. rewrite nth_error_set_nth. destruct (Nat.eqb_spec bf af); [lia|]. apply init_nth. apply NA. }
  rewrite (nth_error_nth _ _ _ E1).
  change (e_b (mk_ear p (at_ L af) (at_ L (af + 1)) (at_ L (af + 2)))) with (at_ L (af + 1)). change (e_c (mk_ear p (at_ L af) (at_ L (af + 1)) (at_ L (af + 2)))) with (at_ L (af + 2)).
  set (ea := mk_ear p (at_ L i) (at_ L (af + 1)) (at_ L (af + 2))). set (es2 := set_nth af ea es1).
  assert (L2 : length es2 = n) by (unfold es2; rewrite set_nth_length; exact L1).
  apply list_ext.
  - rewrite init_length, cutL_length. rewrite app_length, firstn_length, skipn_length, L2. fold n. lia.
  - intros j Hj. rewrite app_length, firstn_length, skipn_length, L2 in Hj. assert (Hj' : j < n - 1) by lia. clear Hj.
    rewrite nth_drop by lia. rewrite init_nth by (rewrite cutL_length; exact Hj'). set (k := if j <? i then j else S j).
    assert (Hk : k < n /\ k <> i) by (unfold k; destruct (Nat.ltb_spec j i); lia).
    unfold es2. rewrite nth_error_set_nth, L1. unfold es1. rewrite nth_error_set_nth, init_length. fold n. rewrite init_nth by apply Hk.
    destruct (Nat.ltb_spec k n) as [_|]; [|lia].
    assert (GOAL : (if af =? k then Some ea else if bf =? k then Some eb else Some (mk_ear p (at_ L k) (at_ L (k + 1)) (at_ L (k + 2)))) =
      Some (mk_ear p (if af =? k then at_ L i else at_ L k) (at_ L (k + 1)) (if bf =? k then at_ L (i + 2) else at_ L (k + 2)))).
    { destruct (Nat.eqb_spec af k) as [E|E]; [|destruct (Nat.eqb_spec bf k) as [F|F]; [rewrite <- F|]; reflexivity].
      destruct (Nat.eqb_spec bf k); [lia|]. rewrite <- E. reflexivity. }
    rewrite GOAL. f_equal. f_equal.
    + rewrite at_cut by (fold n; lia). fold n. rewrite !at_val by (fold n; lia). fold n.
      assert (E : (if af =? k then nth (if i <? n then i else i - n) L (Pt 0 0) else nth (if k <? n then k else k - n) L (Pt 0 0)) = nth (if af =? k then i else k) L (Pt 0 0)).
      { destruct (Nat.ltb_spec i n), (Nat.ltb_spec k n); try lia. destruct (af =? k); reflexivity. }
      rewrite E. f_equal. unfold sigma, k in *. rewrite AF in *. clear - Hi Hj' H4.
      brk.
    + rewrite at_cut by (fold n; lia). fold n. rewrite at_val by (fold n; lia). fold n. f_equal. unfold sigma, k in *. clear - Hi Hj' H4.
      brk.
    + rewrite at_cut by (fold n; lia). fold n. rewrite !at_val by (fold n; lia). fold n.
      match goal with |- (if ?c then nth ?x _ _ else nth ?y _ _) = _ => replace (if c then nth x L (Pt 0 0) else nth y L (Pt 0 0)) with (nth (if c then x else y) L (Pt 0 0)) by (destruct c; reflexivity) end.
      f_equal. unfold sigma, k, bf in *. clear - Hi Hj' H4.
      brk.
Qed.

Lemma rot_at L M : rotl L M -> exists j, (j < length L \/ L = []) /\ forall k, k < length L -> nth k M (Pt 0 0) = at_ L (j + k).
Proof.
  intros (u & v & -> & ->). destruct v as [|x v].
  - exists 0. split; [destruct u; [auto|left; cbn; lia]|]. intros k' Hk. rewrite !app_nil_r in *. cbn [app Nat.add]. rewrite at_nth by (rewrite ?app_nil_r; lia). reflexivity.
  - exists (length u). rewrite app_length. cbn [length]. split; [left; lia|]. intros k' Hk. rewrite at_val by (rewrite app_length; cbn [length]; lia).
    rewrite app_length. cbn [length]. destruct (Nat.ltb_spec (length u + k') (length u + S (length v))).
    + rewrite app_nth1 by (cbn [length]; lia). rewrite app_nth2 by lia. f_equal. lia.
    + rewrite app_nth2 by (cbn [length]; lia). rewrite app_nth1 by lia. f_equal. cbn [length]. lia.
Qed.
Lemma consec_ear p L x y z : consec L x y z -> In (mk_ear p x y z) (init_ears p L).
Proof.
  intros (R & H). pose proof (rotl_length _ _ H) as LL. cbn [length] in LL. destruct (rot_at L _ H) as (j & [Hj| ->] & E); [|cbn in LL; lia].
  pose proof (E 0 ltac:(lia)) as E0. pose proof (E 1 ltac:(lia)) as E1. pose proof (E 2 ltac:(lia)) as E2. cbn [nth] in *. rewrite Nat.add_0_r in E0.
  apply nth_error_In with j. rewrite init_nth by exact Hj. congruence.
Qed.
Lemma nth_skip {A} (d : A) L i k : nth k (skipn i L) d = nth (i + k) L d.
Proof. revert i. induction L as [|x L IH]; intros [|i]; cbn; auto; destruct k; auto. Qed.
Lemma nth_first {A} (d : A) L i k : k < i -> nth k (firstn i L) d = nth k L d.
Proof. revert i k. induction L as [|x L IH]; intros [|i] [|k] H; cbn; auto; try lia. apply IH. lia. Qed.
Lemma rot_to L i : 3 <= length L -> i < length L -> exists R, rotl L (at_ L i :: at_ L (i + 1) :: at_ L (i + 2) :: R) /\ length R = length L - 3.
Proof.
  intros H3 Hi. set (M := skipn i L ++ firstn i L). assert (RM : rotl L M) by (exists (firstn i L), (skipn i L); split; [symmetry; apply firstn_skipn|reflexivity]).
  pose proof (rotl_length _ _ RM) as LM.
  assert (E : forall k, k < length L -> nth k M (Pt 0 0) = at_ L (i + k)).
  { intros k Hk. rewrite at_val by lia. unfold M. destruct (Nat.ltb_spec (i + k) (length L)).
    - rewrite app_nth1 by (rewrite skipn_length; lia). apply nth_skip.
    - rewrite app_nth2 by (rewrite skipn_length; lia). rewrite skipn_length, nth_first by lia. f_equal. lia. }
  pose proof (E 0 ltac:(lia)) as E0. pose proof (E 1 ltac:(lia)) as E1. pose proof (E 2 ltac:(lia)) as E2. rewrite Nat.add_0_r in E0.
  destruct M as [|x [|y [|z R]]]; cbn [length] in LM; try lia. cbn [nth] in *. exists R. subst x y z. split; [exact RM|lia].
Qed.
Lemma cut_rot L i R : 4 <= length L -> i < length L -> rotl L (at_ L i :: at_ L (i + 1) :: at_ L (i + 2) :: R) -> NoDup L ->
  rotl (at_ L i :: at_ L (i + 2) :: R) (cutL L i).
Proof.
  intros H4 Hi RL ND. destruct (Nat.ltb_spec (i + 1) (length L)) as [Q|Q].
  - assert (EL : L = firstn i L ++ at_ L i :: at_ L (i + 1) :: skipn (i + 2) L).
    { apply list_ext.
      - rewrite app_length, firstn_length. cbn [length]. rewrite skipn_length. lia.
      - intros j Hj. destruct (Nat.ltb_spec j i).
        + rewrite nth_error_app1 by (rewrite firstn_length; lia). rewrite <- (firstn_skipn i L) at 1. rewrite nth_error_app1 by (rewrite firstn_length; lia). reflexivity.
        + rewrite nth_error_app2 by (rewrite firstn_length; lia). rewrite firstn_length, Nat.min_l by lia.
          destruct (j - i) as [|[|m]] eqn:Em; cbn [nth_error].
          * rewrite at_nth by lia. replace j with i by lia. apply nth_error_nth'. lia.
          * rewrite at_nth by lia. replace j with (i + 1) by lia. apply nth_error_nth'. lia.
          * rewrite <- (firstn_skipn (i + 2) L) at 1. rewrite nth_error_app2 by (rewrite firstn_length; lia). rewrite firstn_length, Nat.min_l by lia. f_equal. lia. }
    assert (EC : cutL L i = firstn i L ++ at_ L i :: skipn (i + 2) L).
    { apply (nth_ext _ _ (Pt 0 0) (Pt 0 0)).
      - rewrite cutL_length, app_length, firstn_length. cbn [length]. rewrite skipn_length. lia.
      - intros j Hj. rewrite cutL_length in Hj. rewrite cutL_nth by exact Hj. unfold sigma. destruct (Nat.ltb_spec (i + 1) (length L)); [|lia].
        rewrite EL at 1. destruct (Nat.leb_spec j i).
        + destruct (Nat.eq_dec j i) as [->|].
          * rewrite !app_nth2 by (rewrite firstn_length; lia). rewrite firstn_length, Nat.min_l by lia. rewrite Nat.sub_diag. reflexivity.
          * rewrite !app_nth1 by (rewrite firstn_length; lia). reflexivity.
        + rewrite !app_nth2 by (rewrite firstn_length; lia). rewrite firstn_length, Nat.min_l by lia.
          assert (exists m, j = i + 1 + m) as (m & ->) by (exists (j - i - 1); lia). replace (i + 1 + m + 1 - i) with (S (S m)) by lia. replace (i + 1 + m - i) with (S m) by lia. reflexivity. }
    rewrite EC. 
    assert (RL2 : rotl L (at_ L i :: at_ L (i + 1) :: skipn (i + 2) L ++ firstn i L)).
    { exists (firstn i L), (at_ L i :: at_ L (i + 1) :: skipn (i + 2) L). split; [exact EL|reflexivity]. }
    assert (U : at_ L (i + 2) :: R = skipn (i + 2) L ++ firstn i L).
    { pose proof (rotl_trans _ _ _ (rotl_sym _ _ RL) RL2) as (x & y & E & E'). pose proof (Permutation_NoDup (rotl_perm _ _ RL) ND) as ND2. destruct x as [|h x].
      - rewrite app_nil_r in E'. cbn [app] in E. congruence.
      - cbn [app] in E. injection E as <- E. destruct y as [|h' y]; [cbn [app] in E'; rewrite app_nil_r in E; congruence|].
        cbn [app] in E'. injection E' as <- E'. exfalso. inversion ND2 as [|? ? N _]; subst. apply N. rewrite E. apply in_or_app. right. left. reflexivity. }
    rewrite U. exists (at_ L i :: skipn (i + 2) L), (firstn i L). auto.
  - assert (i = length L - 1) by lia. subst i. destruct L as [|b L0] eqn:EQ; [cbn in H4; lia|]. rewrite <- EQ in *.
    destruct (exists_last (l := L0)) as (v & a & EV); [intros ->; rewrite EQ in H4; cbn in H4; lia|].
    assert (LL : length L = S (S (length v))) by (rewrite EQ, EV; cbn [length]; rewrite app_length; cbn; lia).
    assert (Ea : at_ L (length L - 1) = a).
    { rewrite at_nth by lia. rewrite LL, EQ, EV. cbn [Nat.sub nth]. rewrite app_nth2 by lia. rewrite Nat.sub_diag. reflexivity. }
    assert (Eb : at_ L (length L - 1 + 1) = b). { rewrite at_wrap by lia. replace (length L - 1 + 1 - length L) with 0 by lia. rewrite EQ. reflexivity. }
    assert (EC : cutL L (length L - 1) = a :: v).
    { apply (nth_ext _ _ (Pt 0 0) (Pt 0 0)).
      - rewrite cutL_length. cbn [length]. lia.
      - intros j Hj. rewrite cutL_length in Hj. rewrite cutL_nth by exact Hj. unfold sigma. destruct (Nat.ltb_spec (length L - 1 + 1) (length L)); [lia|].
        destruct (Nat.eqb_spec j 0) as [->|].
        + rewrite <- Ea. rewrite at_nth by lia. reflexivity.
        + destruct j as [|j]; [lia|]. rewrite EQ, EV. cbn [nth]. rewrite app_nth1 by lia. reflexivity. }
    rewrite EC. rewrite Ea, Eb in *. assert (U : at_ L (length L - 1 + 2) :: R = v).
    { assert (RL2 : rotl L (a :: b :: v)) by (exists (b :: v), [a]; rewrite EQ, EV; auto).
      pose proof (rotl_trans _ _ _ (rotl_sym _ _ RL) RL2) as (x & y & E & E'). pose proof (Permutation_NoDup (rotl_perm _ _ RL) ND) as ND2. destruct x as [|h x].
      - rewrite app_nil_r in E'. cbn [app] in E. congruence.
      - cbn [app] in E. injection E as <- E. destruct y as [|h' y]; [cbn [app] in E'; rewrite app_nil_r in E; congruence|].
        cbn [app] in E'. injection E' as <- E'. exfalso. inversion ND2 as [|? ? N _]; subst. apply N. rewrite E. apply in_or_app. right. left. reflexivity. }
    rewrite U. apply rotl_refl.
Qed.

(* ---------------------------------------------------------------- *)
(** * The search for the lowest score *)
Lemma flt_trans x y z : fin x -> fin y -> fin z -> flt x y = true -> flt y z = true -> flt x z = true.
Proof.
  intros X Y W. rewrite !flt_R by assumption. intros A B. apply Rlt_bool_true.
  assert (A' : (R64 x < R64 y)%R) by (revert A; case Rlt_bool_spec; [auto|discriminate]).
  assert (B' : (R64 y < R64 z)%R) by (revert B; case Rlt_bool_spec; [auto|discriminate]). lra.
Qed.
Lemma flt_irrefl x : fin x -> flt x x = false.
Proof. intros X. rewrite flt_R by exact X. apply Rlt_bool_false. lra. Qed.

Lemma lowest_spec es : forall i b idx, fin b -> (forall e, In e es -> fin (e_score e)) ->
  (lowest i b idx es = idx /\ forall e, In e es -> flt (e_score e) b = false) \/
  (exists j e, nth_error es j = Some e /\ lowest i b idx es = i + j /\ flt (e_score e) b = true /\ forall e', In e' es -> flt (e_score e') (e_score e) = false).
Proof.
  induction es as [|e es IH]; intros i b idx Fb F; [left; split; [reflexivity|intros ? []]|].
  cbn [lowest]. pose proof (F e (or_introl eq_refl)) as Fe. destruct (flt (e_score e) b) eqn:Q.
  - destruct (IH (S i) (e_score e) i Fe) as [[E A]|(j & e2 & E & E' & B & A)]; [intros; apply F; right; assumption| |].
    + right. exists 0, e. split; [reflexivity|]. rewrite E. split; [lia|]. split; [exact Q|]. intros e' [<-|I]; [apply flt_irrefl, Fe|apply A, I].
    + right. exists (S j), e2. split; [exact E|]. rewrite E'. split; [lia|]. pose proof (F e2 (or_intror (nth_error_In _ _ E))) as F2.
      split; [apply (flt_trans _ (e_score e)); assumption|]. intros e' [<-|I]; [|apply A, I].
      destruct (flt (e_score e) (e_score e2)) eqn:W; [|reflexivity]. exfalso. pose proof (flt_trans _ _ _ Fe F2 Fe W B) as K. rewrite flt_irrefl in K by exact Fe. discriminate.
  - destruct (IH (S i) b idx Fb) as [[E A]|(j & e2 & E & E' & B & A)]; [intros; apply F; right; assumption| |].
    + left. split; [exact E|]. intros e' [<-|I]; [exact Q|apply A, I].
    + right. exists (S j), e2. split; [exact E|]. rewrite E'. split; [lia|]. split; [exact B|]. pose proof (F e2 (or_intror (nth_error_In _ _ E))) as F2.
      intros e' [<-|I]; [|apply A, I]. destruct (flt (e_score e) (e_score e2)) eqn:W; [|reflexivity].
      rewrite (flt_trans _ _ _ Fe F2 Fb W B) in Q. discriminate.
Qed.

(** What is needed of the scores of triangles with corners in [V]: a triangle that
    does not turn left has the largest score, and scores that are not too close are
    in the right order. *)
Record scores_ok (Qm : Z) (p : point) (V : list point) : Prop := {
  sc_fin : forall x y z, In x V -> In y V -> In z V -> fin (calculate_score x y z p);
  sc_max : forall x y z, In x V -> In y V -> In z V -> (orient x y z <= 0)%Z -> calculate_score x y z p = max_float64;
  sc_lt : forall x y z, In x V -> In y V -> In z V -> (0 < orient x y z)%Z -> flt (calculate_score x y z p) max_float64 = true;
  sc_pos : (0 <= Qm)%Z;
  sc_size : ears_sized p Qm V;
  sc_gap : forall x y z x' y' z', In x V -> In y V -> In z V -> In x' V -> In y' V -> In z' V -> (0 < orient x y z)%Z -> (0 < orient x' y' z')%Z ->
    (0 < incirc x' y' z' p)%Z -> (0 <= incirc x y z p)%Z ->
    (incirc x y z p * orient x' y' z' * Qm <= incirc x' y' z' p * orient x y z * (Qm - 1))%Z -> flt (calculate_score x y z p) (calculate_score x' y' z' p) = true }.

Lemma max_fin : fin max_float64.
Proof. vm_compute. reflexivity. Qed.

Lemma at_In L k : L <> [] -> In (at_ L k) L.
Proof. intros H. apply nth_In. apply Nat.mod_upper_bound. destruct L; [contradiction|cbn; lia]. Qed.
Lemma init_In p L e : In e (init_ears p L) -> exists x y z, In x L /\ In y L /\ In z L /\ e = mk_ear p x y z.
Proof.
  intros I. apply In_nth_error in I. destruct I as (i & E). assert (Hi : i < length L) by (rewrite <- (init_length p L); apply nth_error_Some; congruence).
  rewrite init_nth in E by exact Hi. injection E as <-. assert (L <> []) by (intros ->; cbn in Hi; lia). exists (at_ L i), (at_ L (i + 1)), (at_ L (i + 2)). auto using at_In.
Qed.

Lemma lowest_lt Qm p L : scores_ok Qm p L -> L <> [] -> lowest 0 max_float64 0 (init_ears p L) < length L.
Proof.
  intros SC NE. destruct (lowest_spec (init_ears p L) 0 max_float64 0 max_fin) as [[E _]|(j & e & E & E' & _)].
  - intros e I. destruct (init_In _ _ _ I) as (x & y & z & X & Y & W & ->). apply (sc_fin Qm p L SC); assumption.
  - rewrite E. destruct L; [contradiction|cbn; lia].
  - rewrite E'. rewrite <- (init_length p L). cbn [Nat.add]. apply nth_error_Some. congruence.
Qed.
Lemma lowest_best Qm p L : scores_ok Qm p L -> 3 <= length L -> let i := lowest 0 max_float64 0 (init_ears p L) in best p L (at_ L i) (at_ L (i + 1)) (at_ L (i + 2)).
Proof.
  intros SC H3 i G (x & y & z & CX & OX). assert (NE : L <> []) by (intros ->; cbn in H3; lia). pose proof (lowest_lt Qm p L SC NE) as Hi. fold i in Hi.
  pose proof (consec_ear p L x y z CX) as IX.
  assert (IN3 : forall x y z, consec L x y z -> In x L /\ In y L /\ In z L).
  { intros x0 y0 z0 (R0 & H0). repeat split; apply (rotl_In _ _ _ H0); cbn; auto. }
  destruct (IN3 _ _ _ CX) as (X & Y & W).
  assert (FI : forall e, In e (init_ears p L) -> fin (e_score e)).
  { intros e I. destruct (init_In _ _ _ I) as (a & b & c & A & B & C & ->). apply (sc_fin Qm p L SC); assumption. }
  destruct (lowest_spec (init_ears p L) 0 max_float64 0 max_fin FI) as [[_ A]|(j & e & E & E' & B & A)].
  - specialize (A _ IX). cbn [mk_ear e_score] in A. rewrite (sc_lt Qm p L SC) in A by assumption. discriminate.
  - fold i in E'. cbn [Nat.add] in E'. subst j. rewrite init_nth in E by exact Hi. injection E as <-. cbn [mk_ear e_score] in *.
    assert (OP : (0 < orient (at_ L i) (at_ L (i + 1)) (at_ L (i + 2)))%Z).
    { destruct (Z_lt_le_dec 0 (orient (at_ L i) (at_ L (i + 1)) (at_ L (i + 2)))) as [Q|Q]; [exact Q|]. exfalso.
      rewrite (sc_max Qm p L SC) in B by (auto using at_In). rewrite flt_irrefl in B by exact max_fin. discriminate. }
    split; [exact OP|]. intros d Id. apply Z.nlt_ge. intros F. destruct (rot_to L i H3 Hi) as (R & RL & _).
    destruct (ear_gap p Qm L _ _ _ d G (ex_intro _ R RL) OP (sc_pos Qm p L SC) (sc_size Qm p L SC) Id F) as (x' & y' & z' & CX' & OX' & IX' & IA & GAP).
    destruct (IN3 _ _ _ CX') as (X' & Y' & W'). pose proof (A _ (consec_ear p L _ _ _ CX')) as NL. cbn [mk_ear e_score] in NL.
    rewrite (sc_gap Qm p L SC) in NL; auto using at_In. discriminate.
Qed.

Lemma cutL_In L i v : 4 <= length L -> In v (cutL L i) -> In v L.
Proof.
  intros H4 I. unfold cutL in I. apply in_map_iff in I. destruct I as (x & <- & I). apply in_seq in I. apply nth_In. unfold sigma. brk.
Qed.
Lemma scores_sub Qm p V W : scores_ok Qm p V -> incl W V -> scores_ok Qm p W.
Proof.
  intros SC I. constructor; intros.
  - apply (sc_fin Qm p V SC); auto.
  - apply (sc_max Qm p V SC); auto.
  - apply (sc_lt Qm p V SC); auto.
  - apply (sc_pos Qm p V SC).
  - intros a b c d Ia Ib Ic Id. apply (sc_size Qm p V SC); auto.
  - apply (sc_gap Qm p V SC); auto.
Qed.
Theorem ear_loop_cut Qm p : forall n L, 3 <= length L <= n -> NoDup L -> scores_ok Qm p L ->
  exists T, ear_loop n p (init_ears p L) = Some T /\ earcut p L T.
Proof.
  induction n as [|n IH]; intros L H ND SC; [lia|]. cbn [ear_loop]. rewrite init_length. destruct (Nat.ltb_spec 3 (length L)) as [Q|Q].
  - assert (NE : L <> []) by (intros ->; cbn in Q; lia). pose proof (lowest_lt Qm p L SC NE) as Hi. pose proof (lowest_best Qm p L SC ltac:(lia)) as B. cbv zeta in B.
    set (i := lowest 0 max_float64 0 (init_ears p L)) in *. rewrite init_nth by exact Hi. rewrite cut_init by lia.
    destruct (rot_to L i ltac:(lia) Hi) as (R & RL & LR). pose proof (cut_rot L i R Q Hi RL ND) as RC.
    destruct (IH (cutL L i)) as (T & -> & EC).
    + rewrite cutL_length. lia.
    + apply (Permutation_NoDup (rotl_perm _ _ RC)). pose proof (Permutation_NoDup (rotl_perm _ _ RL) ND) as ND2.
      inversion ND2 as [|? ? N1 N2]; subst. inversion N2 as [|? ? N3 N4]; subst. constructor; [|exact N4]. intros I. apply N1. right. exact I.
    + apply (scores_sub Qm p L); [exact SC|]. intros v I. eapply cutL_In; eauto.
    + eexists. split; [reflexivity|]. cbn [mk_ear e_a e_b e_c]. apply (ec_cut p L _ _ _ R (cutL L i)); [intros ->; cbn in LR; lia|exact RL|exact B|exact RC|exact EC].
  - destruct L as [|a [|b [|c [|x L]]]]; cbn [length] in H, Q; try lia. cbn. eexists. split; [reflexivity|]. apply ec_last.
Qed.
