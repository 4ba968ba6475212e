(** Proofs about Delaunay on slices (M_Mem). *)
From Coq Require Import ZArith List Bool Arith Lia Permutation.
From Verif Require Import GoNum M_Norm M_Slice M_Geom M_Image M_Raster M_Delaunay M_Fitness M_Heap M_Cells M_Mem S_Mem L_Heap L_Raster1 L_PMap L_Tri L_Cells.
Import ListNotations.
Local Open Scope nat_scope.

(* ---------------------------------------------------------------- *)
(** * Slices that own their arrays *)
Section Own.
Context {A : Type} (zero : A) (grow : list (list A) -> nat).
Implicit Types (h : list (list A)) (s : header) (l : list header).

Definition good h l : Prop := Forall (valid_hd h) l /\ NoDup (map h_arr l).
Definition same h h' l : Prop := forall s, In s l -> elems h' s = elems h s.
(** s becomes s', in its own array or in a new one. *)
Definition step h h' s s' : Prop := valid_hd h' s' /\ touches [h_arr s] h h' /\ moved h s s'.

Lemma good_perm h l l' : Permutation l l' -> good h l -> good h l'.
Proof.
  intros P [V N]. split; [rewrite Forall_forall in *; intros s I; apply V; eapply Permutation_in; [apply Permutation_sym, P|exact I]|].
  eapply Permutation_NoDup; [apply Permutation_map, P|exact N].
Qed.
Lemma good_head h s l : good h (s :: l) -> valid_hd h s.
Proof. intros [V _]. inversion V. assumption. Qed.
Lemma good_tail h s l : good h (s :: l) -> good h l.
Proof. intros [V N]. inversion V. inversion N. split; assumption. Qed.
Lemma same_refl h l : same h h l. Proof. intros s _. reflexivity. Qed.
Lemma same_trans h h1 h2 l : same h h1 l -> same h1 h2 l -> same h h2 l.
Proof. intros P Q s I. rewrite Q, P; auto. Qed.
Lemma same_sub h h' l l' : same h h' l -> incl l' l -> same h h' l'.
Proof. intros P I s J. apply P, I, J. Qed.
Lemma same_map h h' l : same h h' l -> map (elems h') l = map (elems h) l.
Proof. intros S. apply map_ext_in. exact S. Qed.

Lemma good_step h h' s s' l : good h (s :: l) -> step h h' s s' -> good h' (s' :: l) /\ same h h' l.
Proof.
  intros [V N] (V' & T & M). inversion V as [|? ? Vs Vl]; subst. inversion N as [|? ? Ns Nl]; subst. rewrite Forall_forall in Vl. split.
  - split.
    + constructor; [exact V'|]. apply Forall_forall. intros t I. exact (touches_valid _ _ _ _ T (Vl t I)).
    + cbn [map]. constructor; [|exact Nl]. intros I. apply in_map_iff in I as (t & E & I). destruct M as [e|G]; [apply Ns; rewrite <- e, <- E; apply in_map, I|]. destruct (Vl t I). lia.
  - intros t I. apply (touches_elems _ _ _ _ T); [apply Vl, I|]. intros [e|[]]. apply Ns. rewrite e. apply in_map, I.
Qed.
Lemma good_mid h h' s s' l1 l2 : good h (l1 ++ s :: l2) -> step h h' s s' -> good h' (l1 ++ s' :: l2) /\ same h h' (l1 ++ l2).
Proof.
  intros G S. assert (G1 : good h (s :: l1 ++ l2)) by (eapply good_perm; [apply Permutation_sym, Permutation_middle|exact G]).
  destruct (good_step _ _ _ _ _ G1 S) as [G2 E]. split; [|exact E]. eapply good_perm; [apply Permutation_middle|exact G2].
Qed.

Lemma step_refl h s : valid_hd h s -> step h h s s.
Proof. intros V. split; [exact V|]. split; [apply touches_refl|left; reflexivity]. Qed.
Lemma step_trans h h1 h2 s s1 s2 : step h h1 s s1 -> step h1 h2 s1 s2 -> step h h2 s s2.
Proof.
  intros (V1 & T1 & M1) (V2 & T2 & M2). split; [exact V2|]. split.
  - apply (touches_trans _ _ _ _ _ T1 T2). intros y [<-|[]] Ly. destruct M1 as [e|G]; [left; symmetry; exact e|lia].
  - destruct T1 as [LT _]. unfold moved in *. destruct M1, M2; try (right; lia). left. congruence.
Qed.
(** Writing to the array of a slice, with a length that the array still has. *)
Lemma write_step h s a n : valid_hd h s -> length a = length (nth (h_arr s) h []) -> n <= length a ->
  step h (set_nth (h_arr s) a h) s (Hd (h_arr s) n) /\ elems (set_nth (h_arr s) a h) (Hd (h_arr s) n) = firstn n a.
Proof.
  intros [B V] L N. unfold step, valid_hd, touches, moved, elems. cbn [h_arr h_len]. rewrite set_nth_length, nth_set_nth, Nat.eqb_refl, (proj2 (Nat.ltb_lt _ _) B). cbn [andb].
  split; [|reflexivity]. split; [split; lia|]. split; [|left; reflexivity]. split; [lia|]. intros b Bb. rewrite nth_set_nth.
  destruct (Nat.eqb_spec (h_arr s) b) as [e|e]; cbn [andb]; [|auto]. rewrite (proj2 (Nat.ltb_lt _ _) B). subst b. split; [exact L|]. intros K. exfalso. apply K. left. reflexivity.
Qed.
Lemma hd_eta s : Hd (h_arr s) (h_len s) = s. Proof. destruct s. reflexivity. Qed.
Lemma push_step h s v h' s' : valid_hd h s -> push zero grow (h, s) v = (h', s') -> elems h' s' = elems h s ++ [v] /\ step h h' s s'.
Proof. intros V E. destruct (push_ok _ _ _ _ _ _ _ V E) as (Q & V' & T & M). split; [exact Q|]. split; [exact V'|]. split; assumption. Qed.
Lemma push_len h s v h' s' : push zero grow (h, s) v = (h', s') -> h_len s' = S (h_len s).
Proof. unfold push. destruct (_ <? _); intros E; injection E as <- <-; reflexivity. Qed.
Lemma cut_step h s n : valid_hd h s -> n <= h_len s -> step h h s (Hd (h_arr s) n) /\ elems h (Hd (h_arr s) n) = firstn n (elems h s).
Proof.
  intros [B V] L. split; [split; [split; cbn [h_arr h_len]; lia|]; split; [apply touches_refl|left; reflexivity]|]. unfold elems. cbn [h_arr h_len]. rewrite firstn_firstn. f_equal. lia.
Qed.
Lemma firstn_set_nth_in {B} n k (v : B) (l : list B) : k < n -> firstn n (set_nth k v l) = set_nth k v (firstn n l).
Proof. revert n k. induction l as [|x l IH]; intros [|n] [|k] L; cbn; try reflexivity; try lia. f_equal. apply IH. lia. Qed.
Lemma firstn_set_nth_out {B} n k (v : B) (l : list B) : n <= k -> firstn n (set_nth k v l) = firstn n l.
Proof. revert n k. induction l as [|x l IH]; intros [|n] [|k] L; cbn; try reflexivity; try lia. f_equal. apply IH. lia. Qed.

Lemma znth_lt {B} (l : list B) i v : znth l i = Some v -> (0 <= i < Z.of_nat (length l))%Z.
Proof. unfold znth. destruct (Z.ltb_spec i 0); [discriminate|]. intros E. assert (K : nth_error l (Z.to_nat i) <> None) by congruence. apply nth_error_Some in K. lia. Qed.
Lemma znth_nat {B} (l : list B) n : znth l (Z.of_nat n) = nth_error l n.
Proof. unfold znth. destruct (Z.ltb_spec (Z.of_nat n) 0); [lia|]. rewrite Nat2Z.id. reflexivity. Qed.

Lemma put_spec h s i v : valid_hd h s -> match put h s i v with None => zset (elems h s) i v = None | Some h' => zset (elems h s) i v = Some (elems h' s) /\ step h h' s s end.
Proof.
  intros V. unfold put, zset, at_. destruct (znth (elems h s) i) as [x|] eqn:E; [|reflexivity]. apply znth_lt in E. rewrite (elems_length h s V) in E.
  destruct (write_step h s (set_nth (Z.to_nat i) v (nth (h_arr s) h [])) (h_len s) V) as [S Q]; [apply set_nth_length|rewrite set_nth_length; apply V|]. rewrite hd_eta in *.
  split; [|exact S]. rewrite Q. f_equal. unfold elems. rewrite firstn_set_nth_in by lia. reflexivity.
Qed.
Lemma drop_spec h s i : valid_hd h s -> i < h_len s -> exists h' s', drop_at h s i = Some (h', s') /\ elems h' s' = swap_delete i (elems h s) /\ step h h' s s' /\ h_arr s' = h_arr s /\ h_len s = S (h_len s').
Proof.
  intros V L. pose proof (elems_length h s V) as EL. unfold drop_at, at_. assert (Q : znth (elems h s) (Z.of_nat (h_len s) - 1) = nth_error (elems h s) (h_len s - 1)).
  { rewrite <- (znth_nat (elems h s) (h_len s - 1)). f_equal. lia. }
  rewrite Q. destruct (nth_error (elems h s) (h_len s - 1)) as [x|] eqn:E; [|exfalso; apply nth_error_None in E; lia].
  pose proof (put_spec h s (Z.of_nat i) x V) as P. destruct (put h s (Z.of_nat i) x) as [h'|].
  - destruct P as [P S]. unfold zset in P. destruct (znth (elems h s) (Z.of_nat i)); [|discriminate]. rewrite Nat2Z.id in P. assert (P2 := f_equal (fun o => match o with Some l => l | None => [] end) P). cbn in P2.
    exists h', (Hd (h_arr s) (h_len s - 1)). split; [reflexivity|]. destruct S as (V' & T & M). destruct (cut_step h' s (h_len s - 1) V' ltac:(lia)) as [S2 Q2]. split; [|split; [exact (step_trans _ _ _ _ _ _ (conj V' (conj T M)) S2)|split; [reflexivity|cbn; lia]]].
    rewrite Q2, <- P2. unfold swap_delete. rewrite EL, E. reflexivity.
  - exfalso. unfold zset in P. rewrite znth_nat in P. destruct (nth_error (elems h s) i) eqn:E2; [discriminate|]. apply nth_error_None in E2. lia.
Qed.
Lemma splice_len {B} i (vs l : list B) : i + length vs <= length l -> length (splice i vs l) = length l.
Proof. intros L. unfold splice. rewrite !app_length, firstn_length, skipn_length. lia. Qed.
Lemma close_spec h s i : valid_hd h s -> i < h_len s -> exists h', close_gap h s i = Some (h', Hd (h_arr s) (h_len s - 1)) /\
  elems h' (Hd (h_arr s) (h_len s - 1)) = firstn i (elems h s) ++ skipn (S i) (elems h s) /\ step h h' s (Hd (h_arr s) (h_len s - 1)).
Proof.
  intros V L. pose proof (elems_length h s V) as EL. pose proof V as [B V2]. unfold close_gap. rewrite (proj2 (Nat.ltb_lt _ _) L). eexists. split; [reflexivity|].
  assert (LS : length (skipn (S i) (elems h s)) = h_len s - S i) by (rewrite skipn_length, EL; reflexivity).
  destruct (write_step h s (splice i (skipn (S i) (elems h s)) (nth (h_arr s) h [])) (h_len s - 1) V) as [ST Q].
  - apply splice_len. lia.
  - rewrite splice_len by lia. lia.
  - split; [|exact ST]. rewrite Q. unfold splice. rewrite app_assoc, firstn_app, app_length, firstn_length, LS. replace (h_len s - 1 - (Nat.min i (length (nth (h_arr s) h [])) + (h_len s - S i))) with 0 by lia.
    cbn [firstn]. rewrite app_nil_r, firstn_all2 by (rewrite app_length, firstn_length, LS; lia). f_equal. unfold elems. rewrite firstn_firstn. f_equal. lia.
Qed.
Lemma set_spec h s o h' s' : valid_hd h s -> valid_hd h o -> h_arr o <> h_arr s -> slice_set zero h s o = (h', s') -> elems h' s' = elems h o /\ step h h' s s'.
Proof.
  intros V Vo N E. pose proof V as [B V2]. pose proof Vo as [Bo Vo2]. pose proof (elems_length h o Vo) as EL. unfold slice_set in E.
  assert (IN : forall n, n = h_len o -> n <= length (nth (h_arr s) h []) -> forall h1 s1,
     (set_nth (h_arr s) (splice 0 (firstn (Nat.min n (h_len o)) (elems h o)) (nth (h_arr s) h [])) h, Hd (h_arr s) n) = (h1, s1) -> elems h1 s1 = elems h o /\ step h h1 s s1).
  { intros n -> L h1 s1 Q. injection Q as <- <-. rewrite Nat.min_id, <- EL, firstn_all, EL.
    destruct (write_step h s (splice 0 (elems h o) (nth (h_arr s) h [])) (h_len o) V) as [S Q]; [apply splice_len; rewrite EL; lia|rewrite splice_len; rewrite ?EL; lia|].
    split; [|exact S]. rewrite Q. unfold splice. cbn [firstn app]. rewrite <- EL, firstn_app, firstn_all, Nat.sub_diag. cbn [firstn]. apply app_nil_r. }
  destruct (Nat.ltb_spec (h_len o) (length (nth (h_arr s) h []))) as [L|L]; [apply (IN (h_len o) eq_refl ltac:(lia) _ _ E)|].
  destruct (Nat.ltb_spec (length (nth (h_arr s) h [])) (h_len o)) as [L2|L2]; [|apply (IN (length (nth (h_arr s) h [])) ltac:(lia) ltac:(lia) _ _ E)].
  cbn [h_arr h_len] in E. injection E as <- <-. rewrite Nat.min_id. assert (EO : elems (h ++ [repeat zero (h_len o)]) o = elems h o) by (unfold elems; rewrite app_nth1 by exact Bo; reflexivity).
  rewrite EO, <- EL, firstn_all, EL, app_nth2, Nat.sub_diag by lia. cbn [nth]. assert (SP : splice 0 (elems h o) (repeat zero (h_len o)) = elems h o).
  { unfold splice. cbn [firstn app]. rewrite skipn_all2 by (rewrite repeat_length, EL; lia). apply app_nil_r. }
  rewrite SP. assert (V1 : valid_hd (h ++ [repeat zero (h_len o)]) (Hd (length h) (h_len o))).
  { split; cbn [h_arr h_len]; [rewrite app_length; cbn; lia|]. rewrite app_nth2, Nat.sub_diag by lia. cbn [nth]. rewrite repeat_length. lia. }
  destruct (write_step _ _ (elems h o) (h_len o) V1) as [(V3 & T3 & _) Q]; [cbn [h_arr]; rewrite app_nth2, Nat.sub_diag, EL by lia; cbn [nth]; rewrite repeat_length; reflexivity|lia|]. cbn [h_arr] in *.
  split; [rewrite Q, <- EL; apply firstn_all|]. split; [exact V3|]. split; [|right; cbn; lia].
  apply (touches_trans _ _ _ _ _ (touches_weaken [] _ _ _ (add_array h _) (fun x (I : In x []) => match I with end)) T3). intros y [<-|[]] Ly. lia.
Qed.
Lemma make_step h h' s l : good h l -> make_empty zero h 0 = (h', s) -> elems h' s = [] /\ good h' (s :: l) /\ same h h' l.
Proof.
  intros [V N] E. destruct (make_ok _ _ _ _ _ E) as (Q & V' & T & AR). rewrite Forall_forall in V. split; [exact Q|]. split.
  - split; [constructor; [exact V'|]; apply Forall_forall; intros t I; exact (touches_valid _ _ _ _ T (V t I))|]. cbn [map]. constructor; [|exact N]. rewrite AR. intros I. apply in_map_iff in I as (t & Et & I). destruct (V t I). lia.
  - intros t I. apply (touches_elems _ _ _ _ T); [apply V, I|intros []].
Qed.
Lemma row_spec : forall l o h F, good h (l ++ F) -> incl o F ->
  match row_set zero h l o with
  | None => table_set (map (elems h) l) (map (elems h) o) = None
  | Some (h', l') => table_set (map (elems h) l) (map (elems h) o) = Some (map (elems h') l') /\ good h' (l' ++ F) /\ same h h' F
  end.
Proof.
  assert (TS : forall a (t o : list (list A)), table_set (a :: t) o = match o with [] => None | b :: o' => option_map (cons b) (table_set t o') end).
  { intros a t o. unfold table_set. cbn [length seq mapM]. destruct o as [|b o]; [reflexivity|]. cbn [nth_error].
    assert (SH : forall n k, mapM (fun i => nth_error (b :: o) i) (seq (S k) n) = mapM (fun i => nth_error o i) (seq k n)).
    { induction n as [|n IH]; intros k; cbn [seq mapM]; [reflexivity|]. cbn [nth_error]. rewrite IH. reflexivity. }
    rewrite SH. destruct (mapM _ _); reflexivity. }
  induction l as [|s l IH]; intros o h F G I; cbn [row_set].
  - split; [reflexivity|]. split; [exact G|apply same_refl].
  - destruct o as [|t o]; [cbn [map]; rewrite TS; reflexivity|]. destruct (slice_set zero h s t) as [h1 s1] eqn:E. cbn [app] in G.
    assert (It : In t (l ++ F)) by (apply in_or_app; right; apply I; left; reflexivity). pose proof G as [GV GN]. rewrite Forall_forall in GV.
    assert (NE : h_arr t <> h_arr s). { cbn [map] in GN. inversion GN as [|? ? K _]; subst. intros e. apply K. rewrite <- e. apply in_map, It. }
    destruct (set_spec h s t h1 s1 (GV s (or_introl eq_refl)) (GV t (or_intror It)) NE E) as [Q S]. destruct (good_step _ _ _ _ _ G S) as [G1 S1].
    assert (G2 : good h1 (l ++ s1 :: F)) by (eapply good_perm; [apply Permutation_middle|exact G1]).
    specialize (IH o h1 (s1 :: F) G2 (fun x J => or_intror (I x (or_intror J)))).
    assert (EQ1 : map (elems h1) l = map (elems h) l) by (apply same_map; intros x J; apply S1; apply in_or_app; left; exact J).
    assert (EQ2 : map (elems h1) o = map (elems h) o) by (apply same_map; intros x J; apply S1; apply in_or_app; right; apply I; right; exact J).
    rewrite EQ1, EQ2 in IH. cbn [map]. rewrite TS. destruct (row_set zero h1 l o) as [[h2 l2]|]; cbn [option_map fst snd]; [|rewrite IH; reflexivity].
    destruct IH as (T & G3 & S3). rewrite T. cbn [option_map map]. split; [|split].
    + rewrite (S3 s1 (or_introl eq_refl)), Q. reflexivity.
    + cbn [app]. eapply good_perm; [apply Permutation_sym, Permutation_middle|exact G3].
    + intros x J. rewrite (S3 x (or_intror J)). apply S1. apply in_or_app. right. exact J.
Qed.
End Own.

(* ---------------------------------------------------------------- *)
(** * Rows of slices *)
Lemma znth_split {A} (l : list A) i a : znth l i = Some a -> exists l1 l2, l = l1 ++ a :: l2 /\ length l1 = Z.to_nat i /\ (0 <= i)%Z.
Proof.
  intros E. pose proof (znth_lt _ _ _ E) as B. unfold znth in E. destruct (i <? 0)%Z; [discriminate|]. apply nth_error_split in E as (l1 & l2 & -> & L). exists l1, l2. repeat split; [exact L|lia].
Qed.
Lemma zset_split {A} (l1 l2 : list A) i a b : length l1 = Z.to_nat i -> (0 <= i)%Z -> zset (l1 ++ a :: l2) i b = Some (l1 ++ b :: l2).
Proof.
  intros L P. unfold zset. assert (E : znth (l1 ++ a :: l2) i = Some a).
  { unfold znth. destruct (Z.ltb_spec i 0); [lia|]. rewrite nth_error_app2 by lia. rewrite L, Nat.sub_diag. reflexivity. }
  rewrite E. f_equal. rewrite <- L. clear. induction l1 as [|x l1 IH]; cbn; [reflexivity|]. f_equal. exact IH.
Qed.
Lemma row_update {A} (h h' : list (list A)) pm F i s s' : good h (pm ++ F) -> znth pm i = Some s -> step h h' s s' ->
  exists pm', zset pm i s' = Some pm' /\ zset (map (elems h) pm) i (elems h' s') = Some (map (elems h') pm') /\ good h' (pm' ++ F) /\ same h h' F.
Proof.
  intros G E S. destruct (znth_split _ _ _ E) as (l1 & l2 & -> & L & P). exists (l1 ++ s' :: l2). rewrite (zset_split l1 l2 i s s' L P). split; [reflexivity|].
  rewrite <- app_assoc in G. cbn [app] in G. destruct (good_mid _ _ _ _ _ _ G S) as [G1 S1]. rewrite map_app. cbn [map]. rewrite zset_split by (rewrite ?map_length; assumption). split; [|split].
  - f_equal. rewrite map_app. cbn [map]. rewrite (same_map h h' l1), (same_map h h' l2); [reflexivity| |]; intros t I; apply S1; rewrite !in_app_iff; auto.
  - rewrite <- app_assoc. exact G1.
  - intros t I. apply S1. rewrite !in_app_iff. auto.
Qed.
Lemma zset_id {A} (l : list A) i a : znth l i = Some a -> zset l i a = Some l.
Proof. intros E. destruct (znth_split _ _ _ E) as (l1 & l2 & -> & L & P). apply zset_split; assumption. Qed.

(* ---------------------------------------------------------------- *)
(** * pointmap.go *)
Lemma bucket_incr_find p b : bucket_incr p b = match find_index (entry_is p) b with
  | None => None
  | Some k => match nth_error b k with None => None | Some e => let c := u16 (pe_count e + 1) in Some (set_nth k (PE (pe_x e) (pe_y e) c) b, c) end end.
Proof.
  induction b as [|e b IH]; [reflexivity|]. cbn [bucket_incr find_index]. destruct (entry_is p e); [reflexivity|]. rewrite IH. destruct (find_index (entry_is p) b) as [k|]; [|reflexivity].
  cbn [option_map nth_error]. destruct (nth_error b k); reflexivity.
Qed.
Lemma swap_delete_set {A} k (x : A) l : swap_delete k (set_nth k x l) = swap_delete k l.
Proof.
  unfold swap_delete. rewrite set_nth_length, nth_error_set_nth. destruct (Nat.eqb_spec k (length l - 1)) as [e|e].
  - destruct (Nat.ltb_spec (length l - 1) (length l)) as [L|L].
    + destruct (nth_error l (length l - 1)) as [y|] eqn:E; [|apply nth_error_None in E; lia]. rewrite !firstn_set_nth_out by lia. reflexivity.
    + destruct l; [|cbn in L; lia]. destruct k; reflexivity.
  - destruct (nth_error l (length l - 1)) as [y|] eqn:E.
    + f_equal. clear. revert k. induction l as [|a l IH]; intros [|k]; cbn; try reflexivity. f_equal. apply IH.
    + apply nth_error_None in E. destruct l; [|cbn in E; lia]. destruct k; reflexivity.
Qed.
Lemma bucket_view {A} (h : list (list A)) pm p : bucket (map (elems h) pm) p = match bucket_index pm p with None => None | Some i => match znth pm i with None => None | Some s => Some (i, elems h s) end end.
Proof. unfold bucket, bucket_index. rewrite map_length. destruct (length pm =? 0); [reflexivity|]. rewrite znth_map. destruct (znth pm _); reflexivity. Qed.
Lemma znth_good {A} (h : list (list A)) pm F i s : good h (pm ++ F) -> znth pm i = Some s -> valid_hd h s.
Proof. intros [V _] E. rewrite Forall_forall in V. apply V. apply in_or_app. left. eapply znth_In, E. Qed.

Section Ops.
Context (grow : forall A : Type, list (list A) -> nat).

Lemma x_add_point_ok h pm F p : good h (pm ++ F) ->
  match x_add_point grow h pm p with
  | None => add_point (map (elems h) pm) p = None
  | Some (h', pm', c) => add_point (map (elems h) pm) p = Some (map (elems h') pm', c) /\ good h' (pm' ++ F) /\ same h h' F
  end.
Proof.
  intros G. unfold x_add_point, add_point. rewrite bucket_view. destruct (bucket_index pm p) as [i|]; [|reflexivity]. destruct (znth pm i) as [s|] eqn:E; [|reflexivity].
  pose proof (znth_good _ _ _ _ _ G E) as V. rewrite bucket_incr_find. destruct (find_index (entry_is p) (elems h s)) as [k|] eqn:FI.
  - destruct (find_index_Some _ _ _ FI) as (e & NE & _). unfold at_. rewrite znth_nat, NE. cbv zeta. set (c := u16 _). set (v := PE _ _ c).
    pose proof (put_spec h s (Z.of_nat k) v V) as P. unfold zset in P. rewrite znth_nat, NE, Nat2Z.id in P.
    destruct (put h s (Z.of_nat k) v) as [h'|]; [|discriminate]. destruct P as [P S]. assert (P2 : set_nth k v (elems h s) = elems h' s) by congruence. rewrite P2. cbn [option_map].
    destruct (row_update h h' pm F i s s G E S) as (pm' & Z1 & Z2 & G' & S'). rewrite (zset_id _ _ _ E) in Z1. injection Z1 as <-. rewrite Z2. cbn [option_map]. auto.
  - destruct (push zero_entry (grow pentry) (h, s) _) as [h' s'] eqn:PU. destruct (push_step _ _ _ _ _ _ _ V PU) as [Q S].
    destruct (row_update h h' pm F i s s' G E S) as (pm' & Z1 & Z2 & G' & S'). rewrite Z1, <- Q, Z2. cbn [option_map]. auto.
Qed.

Lemma x_remove_point_ok h pm F p : good h (pm ++ F) ->
  match x_remove_point h pm p with
  | None => remove_point (map (elems h) pm) p = None
  | Some (h', pm', c) => remove_point (map (elems h) pm) p = Some (map (elems h') pm', c) /\ good h' (pm' ++ F) /\ same h h' F
  end.
Proof.
  intros G. unfold x_remove_point, remove_point. rewrite bucket_view. destruct (bucket_index pm p) as [i|]; [|reflexivity]. destruct (znth pm i) as [s|] eqn:E; [|reflexivity].
  pose proof (znth_good _ _ _ _ _ G E) as V. destruct (find_index (entry_is p) (elems h s)) as [k|] eqn:FI; [|reflexivity].
  unfold at_. rewrite znth_nat. destruct (nth_error (elems h s) k) as [e|] eqn:NE; [|reflexivity]. cbv zeta. set (c := u16 _). set (v := PE _ _ c).
  pose proof (put_spec h s (Z.of_nat k) v V) as P. unfold zset in P. rewrite znth_nat, NE, Nat2Z.id in P.
  destruct (put h s (Z.of_nat k) v) as [h1|]; [|discriminate]. destruct P as [P S]. assert (P2 : set_nth k v (elems h s) = elems h1 s) by congruence. destruct (c =? 0)%Z.
  - assert (K : k < h_len s) by (rewrite <- (elems_length h s V); apply nth_error_Some; congruence). destruct S as (V1 & T1).
    destruct (drop_spec h1 s k V1 K) as (h2 & s2 & -> & Q2 & S2 & _). assert (S3 := step_trans _ _ _ _ _ _ (conj V1 T1) S2).
    destruct (row_update h h2 pm F i s s2 G E S3) as (pm' & Z1 & Z2 & G' & S'). rewrite Z1. cbn [option_map]. rewrite Q2, <- P2, swap_delete_set in Z2. rewrite Z2. cbn [option_map]. auto.
  - destruct (row_update h h1 pm F i s s G E S) as (pm' & Z1 & Z2 & G' & S'). rewrite (zset_id _ _ _ E) in Z1. injection Z1 as <-. rewrite <- P2 in Z2. rewrite Z2. cbn [option_map]. auto.
Qed.

(* ---------------------------------------------------------------- *)
(** * grid.go *)
Definition gview (sh : grid) (h : list (list Z)) (cells : list (list header)) : grid :=
  Grid (map (map (elems h)) cells) (g_cols sh) (g_rows sh) (g_rowpx sh) (g_colpx sh).
Lemma cell_view sh h cells xy : cell (gview sh h cells) (fst xy) (snd xy) = option_map (elems h) (xcell cells xy).
Proof. unfold cell, gview, xcell. cbn [g_cells]. rewrite znth_map. destruct (znth cells (fst xy)) as [col|]; [|reflexivity]. cbn [option_map]. apply znth_map. Qed.
Lemma cell_good (h : list (list Z)) cells F xy s : good h (concat cells ++ F) -> xcell cells xy = Some s -> valid_hd h s.
Proof.
  intros [V _] E. unfold xcell in E. destruct (znth cells (fst xy)) as [col|] eqn:E1; [|discriminate]. rewrite Forall_forall in V. apply V, in_or_app. left. apply in_concat. exists col. split; eapply znth_In; eassumption.
Qed.
Lemma cell_update sh (h h' : list (list Z)) cells F xy s s' : good h (concat cells ++ F) -> xcell cells xy = Some s -> step h h' s s' ->
  exists cells', set_xcell cells xy s' = Some cells' /\ set_cell (gview sh h cells) (fst xy) (snd xy) (elems h' s') = Some (gview sh h' cells') /\ good h' (concat cells' ++ F) /\ same h h' F.
Proof.
  intros G E S. unfold xcell in E. destruct (znth cells (fst xy)) as [col|] eqn:E1; [|discriminate]. destruct (znth_split _ _ _ E1) as (c1 & c2 & -> & L1 & P1). destruct (znth_split _ _ _ E) as (l1 & l2 & -> & L2 & P2).
  unfold set_xcell. rewrite E1, (zset_split l1 l2 _ s s' L2 P2), (zset_split c1 c2 _ _ _ L1 P1). eexists. split; [reflexivity|].
  rewrite concat_app in G. cbn [concat] in G. rewrite <- !app_assoc in G. cbn [app] in G. rewrite app_assoc in G. destruct (good_mid _ _ _ _ _ _ G S) as [G1 S1].
  assert (IC : forall c, In c c1 \/ In c c2 -> map (elems h') c = map (elems h) c).
  { intros c I. apply same_map. intros t It. apply S1. rewrite !in_app_iff. destruct I as [I|I]; [left; left|right; right; left]; apply in_concat; eauto. }
  assert (IL : forall l, (forall t, In t l -> In t (l1 ++ l2)) -> map (elems h') l = map (elems h) l).
  { intros l I. apply same_map. intros t It. apply S1. specialize (I t It). rewrite !in_app_iff in *. tauto. }
  split; [|split].
  - unfold set_cell, gview. cbn [g_cells g_cols g_rows g_rowpx g_colpx]. rewrite znth_map, E1. cbn [option_map]. rewrite (map_app (elems h)). cbn [map]. rewrite zset_split by (rewrite ?map_length; assumption).
    rewrite (map_app (map (elems h))). cbn [map]. rewrite zset_split by (rewrite ?map_length; assumption). f_equal. f_equal. rewrite map_app. cbn [map]. rewrite map_app. cbn [map].
    rewrite (IL l1), (IL l2) by (intros t It; apply in_or_app; auto). f_equal; [|f_equal]; apply map_ext_in; intros c I; symmetry; apply IC; auto.
  - rewrite concat_app. cbn [concat]. rewrite <- !app_assoc. cbn [app]. rewrite app_assoc. exact G1.
  - intros t I. apply S1. rewrite !in_app_iff. auto.
Qed.

Lemma on_slice_ok sh f fl h cells F xy : (forall (h : list (list Z)) s, valid_hd h s -> exists h' s', f h s = Some (h', s') /\ elems h' s' = fl (elems h s) /\ step h h' s s') ->
  good h (concat cells ++ F) ->
  match on_slice f (h, cells) xy with
  | None => on_cell fl (gview sh h cells) xy = None
  | Some (h', cells') => on_cell fl (gview sh h cells) xy = Some (gview sh h' cells') /\ good h' (concat cells' ++ F) /\ same h h' F
  end.
Proof.
  intros Hf G. unfold on_slice, on_cell. cbn [fst snd]. rewrite cell_view. destruct (xcell cells xy) as [s|] eqn:E; [|reflexivity]. cbn [option_map].
  destruct (Hf h s (cell_good _ _ _ _ _ G E)) as (h' & s' & -> & Q & S). destruct (cell_update sh _ _ _ _ _ _ _ G E S) as (cells' & -> & Z & G' & S'). cbn [option_map]. rewrite <- Q, Z. auto.
Qed.
Lemma on_slices_ok sh f fl F : (forall (h : list (list Z)) s, valid_hd h s -> exists h' s', f h s = Some (h', s') /\ elems h' s' = fl (elems h s) /\ step h h' s s') ->
  forall l h cells, good h (concat cells ++ F) ->
  match foldM (on_slice f) l (h, cells) with
  | None => foldM (on_cell fl) l (gview sh h cells) = None
  | Some (h', cells') => foldM (on_cell fl) l (gview sh h cells) = Some (gview sh h' cells') /\ good h' (concat cells' ++ F) /\ same h h' F
  end.
Proof.
  intros Hf. induction l as [|xy l IH]; intros h cells G; cbn [foldM]; [split; [reflexivity|]; split; [exact G|apply same_refl]|].
  pose proof (on_slice_ok sh f fl h cells F xy Hf G) as C. destruct (on_slice f (h, cells) xy) as [[h1 cells1]|]; [|rewrite C; reflexivity]. destruct C as (C & G1 & S1). rewrite C.
  specialize (IH h1 cells1 G1). destruct (foldM (on_slice f) l (h1, cells1)) as [[h2 cells2]|]; [|exact IH]. destruct IH as (E & G2 & S2). split; [exact E|]. split; [exact G2|exact (same_trans _ _ _ _ S1 S2)].
Qed.
Lemma x_grid_add_ok sh h cells F t i : good h (concat cells ++ F) ->
  match x_grid_add grow sh h cells t i with
  | None => grid_add (gview sh h cells) t i = None
  | Some (h', cells') => grid_add (gview sh h cells) t i = Some (gview sh h' cells') /\ good h' (concat cells' ++ F) /\ same h h' F
  end.
Proof.
  intros G. unfold x_grid_add, grid_add. change (box_cells (gview sh h cells) (d_circ t)) with (box_cells sh (d_circ t)). apply on_slices_ok; [|exact G].
  intros h0 s V. destruct (push 0%Z (grow Z) (h0, s) i) as [h' s'] eqn:P. exists h', s'. split; [reflexivity|]. exact (push_step _ _ _ _ _ _ _ V P).
Qed.
Lemma x_delete_ok i h s : valid_hd h s -> exists h' s', x_delete i h s = Some (h', s') /\ elems h' s' = delete_index i (elems h s) /\ step h h' s s' /\ h_arr s' = h_arr s /\ h_len s <= S (h_len s').
Proof.
  intros V. unfold x_delete, delete_index. destruct (find_index (Z.eqb i) (elems h s)) as [k|] eqn:E.
  - destruct (find_index_Some _ _ _ E) as (a & N & _). assert (K : k < h_len s) by (rewrite <- (elems_length h s V); apply nth_error_Some; congruence).
    destruct (drop_spec h s k V K) as (h' & s' & D & Q & S & A & L). exists h', s'. rewrite D. repeat (split; [assumption || reflexivity|]). lia.
  - exists h, s. split; [reflexivity|]. split; [reflexivity|]. split; [apply step_refl, V|]. split; [reflexivity|lia].
Qed.
Lemma x_grid_remove_ok sh h cells F t i : good h (concat cells ++ F) ->
  match x_grid_remove sh h cells t i with
  | None => grid_remove (gview sh h cells) t i = None
  | Some (h', cells') => grid_remove (gview sh h cells) t i = Some (gview sh h' cells') /\ good h' (concat cells' ++ F) /\ same h h' F
  end.
Proof.
  intros G. unfold x_grid_remove, grid_remove. change (box_cells (gview sh h cells) (d_circ t)) with (box_cells sh (d_circ t)). apply on_slices_ok; [|exact G].
  intros h0 s V. destruct (x_delete_ok i h0 s V) as (h' & s' & D & Q & S & _). exists h', s'. auto.
Qed.

(** The box of a circle has no cell twice, so a cell loses at most one index. *)
Lemma box_nodup sh c : NoDup (box_cells sh c).
Proof.
  unfold box_cells. destruct (circle_box sh c) as [[[x0 y0] x1] y1]. generalize (zfor_NoDup x0 x1). generalize (zfor x0 x1) as xs. induction xs as [|x xs IH]; intros N; cbn [flat_map]; [constructor|]. inversion N as [|? ? Nx Nxs]; subst.
  assert (NY : NoDup (map (fun y => (x, y)) (zfor y0 y1))) by (apply FinFun.Injective_map_NoDup; [intros a b e; congruence|apply zfor_NoDup]).
  specialize (IH Nxs). induction (map (fun y => (x, y)) (zfor y0 y1)) as [|q l IHl] eqn:EM in NY |- *; [exact IH|]. clear IHl.
  assert (AL : forall a, In a (q :: l) -> ~ In a (flat_map (fun x => map (fun y => (x, y)) (zfor y0 y1)) xs)).
  { intros a Ia J. rewrite <- EM in Ia. apply in_map_iff in Ia as (y & <- & _). apply in_flat_map in J as (x' & Ix & J). apply in_map_iff in J as (y' & e & _). injection e as -> _. contradiction. }
  clear EM. revert NY AL. generalize (q :: l) as k. induction k as [|a k IHk]; intros NY AL; [exact IH|]. inversion NY as [|? ? Na Nk]; subst. cbn [app]. constructor; [|apply IHk; [exact Nk|intros b Ib; apply AL; right; exact Ib]].
  intros J. apply in_app_or in J as [J|J]; [contradiction|]. exact (AL a (or_introl eq_refl) J).
Qed.
Lemma set_xcell_get cells xy s cells' q : set_xcell cells xy s = Some cells' -> xcell cells' q = if ((fst xy =? fst q) && (snd xy =? snd q))%Z then Some s else xcell cells q.
Proof.
  unfold set_xcell, xcell. destruct (znth cells (fst xy)) as [col|] eqn:E; [|discriminate]. destruct (zset col (snd xy) s) as [col'|] eqn:E2; [|discriminate]. intros E3.
  destruct (zset_inv _ _ _ _ E3) as (_ & _ & Q). destruct (zset_inv _ _ _ _ E2) as (_ & _ & Q2). rewrite Q. destruct (Z.eqb_spec (fst xy) (fst q)) as [e|e]; [|reflexivity]. cbn [andb]. rewrite Q2, <- e, E.
  destruct (snd xy =? snd q)%Z; reflexivity.
Qed.
Lemma removal_cells i F l : forall h cells h' cells', NoDup l -> good h (concat cells ++ F) -> foldM (on_slice (x_delete i)) l (h, cells) = Some (h', cells') ->
  forall q c, xcell cells q = Some c -> exists c', xcell cells' q = Some c' /\ h_arr c' = h_arr c /\ h_len c <= S (h_len c') /\ (~ In q l -> c' = c).
Proof.
  induction l as [|xy l IH]; intros h cells h' cells' N G E q c Ec; cbn [foldM] in E.
  - injection E as <- <-. exists c. repeat split; auto.
  - inversion N as [|? ? Nx Nl]; subst. assert (XD : forall h0 s, valid_hd h0 s -> exists h1 s1, x_delete i h0 s = Some (h1, s1) /\ elems h1 s1 = delete_index i (elems h0 s) /\ step h0 h1 s s1) by (intros h0 s V; destruct (x_delete_ok i h0 s V) as (h1 & s1 & D & Q & S & _); eauto).
    pose proof (on_slice_ok (Grid [] 0 0 f0 f0) (x_delete i) (delete_index i) h cells F xy XD G) as C'. clear XD.
    destruct (on_slice (x_delete i) (h, cells) xy) as [[h1 cells1]|] eqn:EO; [|discriminate]. destruct C' as (_ & G1 & _). unfold on_slice in EO. cbn [fst snd] in EO. destruct (xcell cells xy) as [s|] eqn:Es; [|discriminate].
    destruct (x_delete_ok i h s (cell_good _ _ _ _ _ G Es)) as (h0 & s' & D & _ & _ & A & L). rewrite D in EO. destruct (set_xcell cells xy s') as [t|] eqn:ES; [|discriminate]. injection EO as <- <-.
    pose proof (set_xcell_get _ _ _ _ q ES) as GQ. destruct ((fst xy =? fst q) && (snd xy =? snd q))%Z eqn:B.
    + apply andb_prop in B as [B1 B2]. apply Z.eqb_eq in B1, B2. assert (xy = q) by (destruct xy, q; cbn in *; congruence). subst q. rewrite Ec in Es. injection Es as ->.
      destruct (IH _ _ _ _ Nl G1 E xy s' GQ) as (c' & E1 & A1 & L1 & K). rewrite (K Nx) in *. exists s'. repeat split; auto. intros J. exfalso. apply J. left. reflexivity.
    + rewrite Ec in GQ. destruct (IH _ _ _ _ Nl G1 E q c GQ) as (c' & E1 & A1 & L1 & K). exists c'. repeat split; auto. intros J. apply K. intros J2. apply J. right. exact J2.
Qed.

(* ---------------------------------------------------------------- *)
(** * delaunay.go: triangles, grid and free indices *)
Definition vt (ts : tstate) : list dtri := elems (t_ht ts) (t_tris ts).
Definition vg (sh : grid) (ts : tstate) : grid := gview sh (t_hi ts) (t_cells ts).
Definition vf (ts : tstate) : list Z := rev (elems (t_hi ts) (t_free ts)).
Definition ts_ok (ts : tstate) (FT FI : list header) : Prop := good (t_ht ts) (t_tris ts :: FT) /\ good (t_hi ts) (t_free ts :: concat (t_cells ts) ++ FI).
Definition ts_same (ts ts' : tstate) (FT FI : list header) : Prop := same (t_ht ts) (t_ht ts') FT /\ same (t_hi ts) (t_hi ts') FI.
Lemma ts_same_refl ts FT FI : ts_same ts ts FT FI. Proof. split; apply same_refl. Qed.
Lemma ts_same_trans a b c FT FI : ts_same a b FT FI -> ts_same b c FT FI -> ts_same a c FT FI.
Proof. intros [A B] [C D]. split; eapply same_trans; eassumption. Qed.

Lemma gview_same sh h h' cells : same h h' (concat cells) -> gview sh h' cells = gview sh h cells.
Proof. intros S. unfold gview. f_equal. apply map_ext_in. intros c I. apply same_map. intros t It. apply S, in_concat. eauto. Qed.
Lemma free_perm {A} (f : A) (c F : list A) : Permutation (f :: c ++ F) (c ++ f :: F).
Proof. apply Permutation_middle. Qed.

Lemma x_add_triangle_ok sh ts t FT FI : ts_ok ts FT FI ->
  match x_add_triangle grow sh ts t with
  | None => add_triangle (vt ts) (vg sh ts) (vf ts) t = None
  | Some ts' => add_triangle (vt ts) (vg sh ts) (vf ts) t = Some (vt ts', vg sh ts', vf ts') /\ ts_ok ts' FT FI /\ ts_same ts ts' FT FI
  end.
Proof.
  intros [GT GI]. pose proof (good_head _ _ _ GT) as VT. pose proof (good_head _ _ _ GI) as VF. pose proof (elems_length _ _ VF) as LF. unfold x_add_triangle, add_triangle.
  assert (GC : good (t_hi ts) (concat (t_cells ts) ++ t_free ts :: FI)) by (eapply good_perm; [apply free_perm|exact GI]).
  destruct (Nat.ltb_spec 0 (h_len (t_free ts))) as [P|P].
  - set (n := h_len (t_free ts)) in *. assert (Q : at_ (t_hi ts) (t_free ts) (Z.of_nat n - 1) = nth_error (elems (t_hi ts) (t_free ts)) (n - 1)).
    { unfold at_. rewrite <- znth_nat. f_equal. lia. }
    rewrite Q. destruct (nth_error (elems (t_hi ts) (t_free ts)) (n - 1)) as [index|] eqn:E; [|apply nth_error_None in E; lia].
    assert (VE : vf ts = index :: rev (firstn (n - 1) (elems (t_hi ts) (t_free ts)))).
    { unfold vf. apply nth_error_split in E as (l1 & l2 & E & L1). rewrite E in LF |- *. rewrite app_length in LF. cbn [length] in LF. destruct l2; [|cbn [length] in LF; lia]. rewrite rev_app_distr. cbn [rev app]. f_equal. f_equal.
      rewrite firstn_app, L1, Nat.sub_diag. cbn [firstn]. rewrite app_nil_r, <- L1. symmetry. apply firstn_all. }
    rewrite VE. pose proof (put_spec (t_ht ts) (t_tris ts) index t VT) as PU. fold (vt ts) in PU. destruct (put (t_ht ts) (t_tris ts) index t) as [ht|]; [|rewrite PU; reflexivity]. destruct PU as [PU ST]. rewrite PU. destruct (good_step _ _ _ _ _ GT ST) as [GT1 S1].
    pose proof (x_grid_add_ok sh (t_hi ts) (t_cells ts) (t_free ts :: FI) t index GC) as GA. fold (vg sh ts) in GA. destruct (x_grid_add grow sh (t_hi ts) (t_cells ts) t index) as [[hi cells]|]; [|rewrite GA; reflexivity].
    destruct GA as (-> & G2 & S2). assert (G3 : good hi (t_free ts :: concat cells ++ FI)) by (eapply good_perm; [apply Permutation_sym, free_perm|exact G2]).
    destruct (cut_step hi (t_free ts) (n - 1) (good_head _ _ _ G3) ltac:(subst n; lia)) as [SC QC]. destruct (good_step _ _ _ _ _ G3 SC) as [G4 _].
    unfold vt, vg, vf. cbn [t_ht t_tris t_hi t_cells t_free]. rewrite QC, (S2 _ (or_introl eq_refl)). split; [reflexivity|]. split; [split; assumption|]. split; [exact S1|]. cbn [t_hi]. intros x I. apply S2. right. exact I.
  - assert (VE : vf ts = []) by (unfold vf; destruct (elems (t_hi ts) (t_free ts)); [reflexivity|cbn [length] in LF; lia]). rewrite VE.
    assert (LT : length (vt ts) = h_len (t_tris ts)) by (apply elems_length; exact VT). rewrite LT.
    pose proof (x_grid_add_ok sh (t_hi ts) (t_cells ts) (t_free ts :: FI) t (u16 (Z.of_nat (h_len (t_tris ts)))) GC) as GA. fold (vg sh ts) in GA. destruct (x_grid_add grow sh (t_hi ts) (t_cells ts) t _) as [[hi cells]|]; [|rewrite GA; reflexivity].
    destruct GA as (-> & G2 & S2). destruct (push zero_tri (grow dtri) (t_ht ts, t_tris ts) t) as [ht tris] eqn:PU. destruct (push_step _ _ _ _ _ _ _ VT PU) as [QP SP]. destruct (good_step _ _ _ _ _ GT SP) as [GT1 S1].
    unfold vt, vg, vf. cbn [t_ht t_tris t_hi t_cells t_free]. rewrite QP, (S2 _ (or_introl eq_refl)). fold (vf ts). rewrite VE. split; [reflexivity|]. split; [split; [exact GT1|]|].
    + cbn [t_hi t_free t_cells]. eapply good_perm; [apply Permutation_sym, free_perm|exact G2].
    + split; [exact S1|]. cbn [t_hi]. intros x I. apply S2. right. exact I.
Qed.

Lemma x_mark_free_ok sh ts i FT FI : ts_ok ts FT FI ->
  match x_mark_free grow ts i with
  | None => mark_free (vt ts) (vf ts) i = None
  | Some ts' => mark_free (vt ts) (vf ts) i = Some (vt ts', vf ts') /\ vg sh ts' = vg sh ts /\ t_cells ts' = t_cells ts /\ t_tris ts' = t_tris ts /\ ts_ok ts' FT FI /\ ts_same ts ts' FT FI
  end.
Proof.
  intros [GT GI]. pose proof (good_head _ _ _ GT) as VT. pose proof (good_head _ _ _ GI) as VF. unfold x_mark_free, mark_free, at_. fold (vt ts). destruct (znth (vt ts) i) as [t|] eqn:E; [|reflexivity].
  set (v := DT _ _ _ _). pose proof (put_spec (t_ht ts) (t_tris ts) i v VT) as PU. fold (vt ts) in PU. destruct (put (t_ht ts) (t_tris ts) i v) as [ht|]; [|rewrite PU; reflexivity]. destruct PU as [-> ST]. destruct (good_step _ _ _ _ _ GT ST) as [GT1 S1].
  destruct (push 0%Z (grow Z) (t_hi ts, t_free ts) i) as [hi free] eqn:PU. destruct (push_step _ _ _ _ _ _ _ VF PU) as [QP SP]. destruct (good_step _ _ _ _ _ GI SP) as [GI1 S2].
  cbn [option_map t_cells t_tris]. unfold vt, vf, vg. cbn [t_ht t_tris t_hi t_cells t_free]. rewrite QP, rev_app_distr. cbn [rev app]. split; [reflexivity|]. split; [apply gview_same; intros x I; apply S2, in_or_app; left; exact I|]. split; [reflexivity|]. split; [reflexivity|].
  split; [split; assumption|]. split; [exact S1|]. intros x I. apply S2, in_or_app. right. exact I.
Qed.

(* ---------------------------------------------------------------- *)
(** * Insert *)
Lemma x_add_edge_ok h s F e : good h (s :: F) -> exists h' s', x_add_edge grow (h, s) e = Some (h', s') /\ elems h' s' = add_edge (elems h s) e /\ good h' (s' :: F) /\ same h h' F.
Proof.
  intros G. pose proof (good_head _ _ _ G) as V. unfold x_add_edge, add_edge. cbn [fst snd]. destruct (find_index (edge_eq e) (elems h s)) as [k|] eqn:E.
  - destruct (find_index_Some _ _ _ E) as (a & N & _). assert (K : k < h_len s) by (rewrite <- (elems_length h s V); apply nth_error_Some; congruence).
    destruct (drop_spec h s k V K) as (h' & s' & D & Q & S & _). destruct (good_step _ _ _ _ _ G S) as [G' S']. eauto 6.
  - destruct (push zero_edge (grow edge) (h, s) e) as [h' s'] eqn:P. destruct (push_step _ _ _ _ _ _ _ V P) as [Q S]. destruct (good_step _ _ _ _ _ G S) as [G' S']. eauto 6.
Qed.
Lemma x_add_tri_edges_ok h s F t : good h (s :: F) -> exists h' s', x_add_tri_edges grow (h, s) t = Some (h', s') /\ elems h' s' = add_tri_edges (elems h s) t /\ good h' (s' :: F) /\ same h h' F.
Proof.
  intros G. unfold x_add_tri_edges, add_tri_edges. cbn [foldM].
  destruct (x_add_edge_ok h s F (new_edge (d_a t) (d_b t)) G) as (h1 & s1 & -> & Q1 & G1 & S1). destruct (x_add_edge_ok h1 s1 F (new_edge (d_b t) (d_c t)) G1) as (h2 & s2 & -> & Q2 & G2 & S2).
  destruct (x_add_edge_ok h2 s2 F (new_edge (d_c t) (d_a t)) G2) as (h3 & s3 & -> & Q3 & G3 & S3). exists h3, s3. split; [reflexivity|]. split; [rewrite Q3, Q2, Q1; reflexivity|]. split; [exact G3|].
  exact (same_trans _ _ _ _ S1 (same_trans _ _ _ _ S2 S3)).
Qed.
(** Two slices of one array read the same. *)
Lemma at_shared {A} (h : list (list A)) s t i : h_arr s = h_arr t -> i < h_len s -> i < h_len t -> at_ h s (Z.of_nat i) = at_ h t (Z.of_nat i).
Proof.
  intros E L1 L2. unfold at_, elems. rewrite !znth_nat, E. generalize (nth (h_arr t) h []) as a. intros a. assert (K : forall n, i < n -> nth_error (firstn n a) i = nth_error a i).
  { clear. revert i. induction a as [|x a IH]; intros [|i] [|n] L; cbn; try reflexivity; try lia. apply IH. lia. }
  rewrite !K by assumption. reflexivity.
Qed.
(** What one removal from the grid leaves of the group. *)
Lemma remove_group sh ts FT FI t i xy c : ts_ok ts FT FI -> xcell (t_cells ts) xy = Some c ->
  match x_grid_remove sh (t_hi ts) (t_cells ts) t i with
  | None => grid_remove (vg sh ts) t i = None
  | Some (hi, cells) => let ts' := TS (t_ht ts) (t_tris ts) hi cells (t_free ts) in
      grid_remove (vg sh ts) t i = Some (vg sh ts') /\ vf ts' = vf ts /\ ts_ok ts' FT FI /\ ts_same ts ts' FT FI /\ exists c', xcell cells xy = Some c' /\ h_arr c' = h_arr c /\ h_len c <= S (h_len c')
  end.
Proof.
  intros [GT GI] Ec. assert (GC : good (t_hi ts) (concat (t_cells ts) ++ t_free ts :: FI)) by (eapply good_perm; [apply free_perm|exact GI]).
  pose proof (x_grid_remove_ok sh (t_hi ts) (t_cells ts) (t_free ts :: FI) t i GC) as R. fold (vg sh ts) in R. destruct (x_grid_remove sh (t_hi ts) (t_cells ts) t i) as [[hi cells]|] eqn:E; [|exact R]. destruct R as (R & G1 & S1). cbv zeta.
  split; [exact R|]. split; [unfold vf; cbn [t_hi t_free]; rewrite (S1 _ (or_introl eq_refl)); reflexivity|]. split; [split; [exact GT|]; cbn [t_hi t_free t_cells]; eapply good_perm; [apply Permutation_sym, free_perm|exact G1]|].
  split; [split; [apply same_refl|]; intros x I; apply S1; right; exact I|]. unfold x_grid_remove in E. destruct (removal_cells i _ _ _ _ _ _ (box_nodup sh (d_circ t)) GC E xy c Ec) as (c' & A & B & C & _). eauto.
Qed.
Lemma x_circles_loop_ok p sh grp trs FT FI FE xy : forall n i ts he edges c, ts_ok ts FT FI -> good he (edges :: FE) -> t_tris ts = trs -> xcell (t_cells ts) xy = Some c -> h_arr c = h_arr grp -> i + n <= h_len c -> i + n <= h_len grp ->
  match x_circles_loop grow n i p sh grp trs ts (he, edges) with
  | None => remove_circles_loop n i p xy (vt ts) (vg sh ts) (vf ts) (elems he edges) = None
  | Some (ts', (he', edges')) => remove_circles_loop n i p xy (vt ts) (vg sh ts) (vf ts) (elems he edges) = Some (vt ts', vg sh ts', vf ts', elems he' edges') /\
      ts_ok ts' FT FI /\ ts_same ts ts' FT FI /\ good he' (edges' :: FE) /\ same he he' FE
  end.
Proof.
  induction n as [|n IH]; intros i ts he edges c O GE ET Ec EA L1 L2; cbn [x_circles_loop remove_circles_loop].
  - split; [reflexivity|]. split; [exact O|]. split; [apply ts_same_refl|]. split; [exact GE|apply same_refl].
  - assert (CV : cell (vg sh ts) (fst xy) (snd xy) = Some (elems (t_hi ts) c)) by (unfold vg; rewrite cell_view, Ec; reflexivity). rewrite CV.
    rewrite (at_shared (t_hi ts) grp c i (eq_sym EA)) by lia. unfold at_ at 1. rewrite znth_nat. destruct (nth_error (elems (t_hi ts) c) i) as [t|]; [|reflexivity].
    unfold at_ at 1. rewrite <- ET. fold (vt ts). destruct (znth (vt ts) t) as [tri|] eqn:Et; [|reflexivity]. destruct (is_freed tri); [reflexivity|]. destruct (contains_point tri p).
    + unfold at_ at 1. fold (vt ts). rewrite Et. destruct (x_add_tri_edges_ok he edges FE tri GE) as (he1 & edges1 & -> & QE & GE1 & SE1).
      pose proof (x_mark_free_ok sh ts t FT FI O) as MF. destruct (x_mark_free grow ts t) as [ts1|]; [|rewrite MF; reflexivity]. destruct MF as (-> & VG & TC & TT & O1 & S1). rewrite <- VG.
      assert (Ec1 : xcell (t_cells ts1) xy = Some c) by (rewrite TC; exact Ec). pose proof (remove_group sh ts1 FT FI tri t xy c O1 Ec1) as R. destruct (x_grid_remove sh (t_hi ts1) (t_cells ts1) tri t) as [[hi cells]|]; [|rewrite R; reflexivity].
      cbv zeta in R. set (ts2 := TS (t_ht ts1) (t_tris ts1) hi cells (t_free ts1)) in *. destruct R as (-> & VF & O2 & S2 & c' & Ec' & A' & L'). rewrite <- VF. change (vt ts1) with (vt ts2). rewrite <- QE, ET.
      specialize (IH i ts2 he1 edges1 c' O2 GE1 ltac:(cbn; congruence) Ec' ltac:(congruence) ltac:(lia) ltac:(lia)). destruct (x_circles_loop grow n i p sh grp trs ts2 (he1, edges1)) as [[ts3 [he3 edges3]]|]; [|exact IH].
      destruct IH as (E3 & O3 & S3 & G3 & SE3). split; [exact E3|]. split; [exact O3|]. split; [exact (ts_same_trans _ _ _ _ _ S1 (ts_same_trans _ _ _ _ _ S2 S3))|]. split; [exact G3|exact (same_trans _ _ _ _ SE1 SE3)].
    + rewrite ET. exact (IH (S i) ts he edges c O GE ET Ec EA ltac:(lia) ltac:(lia)).
Qed.

Lemma x_connect_ok p sh he edges FT FI : forall l2 l1 ts, elems he edges = l1 ++ l2 -> ts_ok ts FT FI ->
  match foldM (x_connect grow p sh (he, edges)) (seq (length l1) (length l2)) ts with
  | None => foldM (connect p) l2 (vt ts, vg sh ts, vf ts) = None
  | Some ts' => foldM (connect p) l2 (vt ts, vg sh ts, vf ts) = Some (vt ts', vg sh ts', vf ts') /\ ts_ok ts' FT FI /\ ts_same ts ts' FT FI
  end.
Proof.
  induction l2 as [|e l2 IH]; intros l1 ts E O; cbn [length seq foldM].
  - split; [reflexivity|]. split; [exact O|apply ts_same_refl].
  - assert (EX : x_connect grow p sh (he, edges) ts (length l1) = if (i64 (i16 (px (snd e) - px (fst e)) * i16 (py p - py (snd e)) - i16 (py (snd e) - py (fst e)) * i16 (px p - px (snd e))) =? 0)%Z then Some ts else x_add_triangle grow sh ts (new_triangle (fst e) (snd e) p)).
    { unfold x_connect, at_. cbn [fst snd]. rewrite znth_nat, E, nth_error_app2, Nat.sub_diag by lia. reflexivity. }
    assert (CX : connect p (vt ts, vg sh ts, vf ts) e = if (i64 (i16 (px (snd e) - px (fst e)) * i16 (py p - py (snd e)) - i16 (py (snd e) - py (fst e)) * i16 (px p - px (snd e))) =? 0)%Z then Some (vt ts, vg sh ts, vf ts) else add_triangle (vt ts) (vg sh ts) (vf ts) (new_triangle (fst e) (snd e) p)) by reflexivity.
    rewrite EX, CX. destruct (_ =? 0)%Z.
    + specialize (IH (l1 ++ [e]) ts). rewrite <- app_assoc, app_length in IH. cbn [app length] in IH. rewrite Nat.add_1_r in IH. exact (IH E O).
    + pose proof (x_add_triangle_ok sh ts (new_triangle (fst e) (snd e) p) FT FI O) as AT. destruct (x_add_triangle grow sh ts (new_triangle (fst e) (snd e) p)) as [ts1|]; [|rewrite AT; reflexivity]. destruct AT as (-> & O1 & S1).
      specialize (IH (l1 ++ [e]) ts1). rewrite <- app_assoc, app_length in IH. cbn [app length] in IH. rewrite Nat.add_1_r in IH. specialize (IH E O1).
      destruct (foldM (x_connect grow p sh (he, edges)) (seq (S (length l1)) (length l2)) ts1) as [ts2|]; [|exact IH]. destruct IH as (E2 & O2 & S2). split; [exact E2|]. split; [exact O2|exact (ts_same_trans _ _ _ _ _ S1 S2)].
Qed.

(* ---------------------------------------------------------------- *)
(** * One triangulation among others *)
Definition own_t (x : xd) : list header := [x_tris x].
Definition own_i (x : xd) : list header := x_free x :: concat (x_cells x).
Definition own_b (x : xd) : list header := x_pm x.
Definition own_e (x : xd) : list header := [x_edges x].
Definition own_p (x : xd) : list header := [x_hull x].
Definition own_r (x : xd) : list header := [x_ears x].
Definition mem_ok (m : mem) (l : list xd) : Prop :=
  good (m_t m) (flat_map own_t l) /\ good (m_i m) (flat_map own_i l) /\ good (m_b m) (flat_map own_b l) /\
  good (m_e m) (flat_map own_e l) /\ good (m_p m) (flat_map own_p l) /\ good (m_r m) (flat_map own_r l).
Definition mem_same (m m' : mem) (l : list xd) : Prop :=
  same (m_t m) (m_t m') (flat_map own_t l) /\ same (m_i m) (m_i m') (flat_map own_i l) /\ same (m_b m) (m_b m') (flat_map own_b l).

Lemma view_eq m m' x : mem_same m m' [x] -> view m' x = view m x.
Proof.
  intros (A & B & C). cbn [flat_map own_t own_i own_b app] in *. rewrite app_nil_r in *. unfold view. cbv zeta. f_equal.
  - apply A. left. reflexivity.
  - apply (gview_same (x_shape x)). intros s I. apply B. right. exact I.
  - apply same_map. exact C.
  - f_equal. apply B. left. reflexivity.
Qed.
Lemma mem_same_in m m' l x : mem_same m m' l -> In x l -> mem_same m m' [x].
Proof.
  intros (A & B & C) I. split; [|split]; (eapply same_sub; [eassumption|]); intros s J; cbn [flat_map] in J; rewrite app_nil_r in J; apply in_flat_map; exists x; split; assumption.
Qed.
Lemma flat_map_perm {A B} (f : A -> list B) l l' : Permutation l l' -> Permutation (flat_map f l) (flat_map f l').
Proof. intros P. apply Permutation_flat_map. exact P. Qed.
Lemma mem_ok_perm m l l' : Permutation l l' -> mem_ok m l -> mem_ok m l'.
Proof. intros P (A & B & C & D & E & F). refine (conj _ (conj _ (conj _ (conj _ (conj _ _))))); (eapply good_perm; [apply flat_map_perm, P|assumption]). Qed.

Lemma view_state m x : view m x = D (vt (tstate_of m x)) (vg (x_shape x) (tstate_of m x)) (map (elems (m_b m)) (x_pm x)) (vf (tstate_of m x)) (x_super x) (x_num x) (x_unique x).
Proof. reflexivity. Qed.
Lemma state_ok m x l : mem_ok m (x :: l) -> ts_ok (tstate_of m x) (flat_map own_t l) (flat_map own_i l).
Proof. intros (A & B & _). split; [exact A|exact B]. Qed.

Lemma x_insert_ok m x l p : mem_ok m (x :: l) ->
  match x_insert grow m x p with
  | None => insert (view m x) p = None
  | Some (m', x') => insert (view m x) p = Some (view m' x') /\ mem_ok m' (x' :: l) /\ mem_same m m' l
  end.
Proof.
  intros O. pose proof (state_ok _ _ _ O) as TO. destruct O as (GT & GI & GB & GE & GP & GR). rewrite view_state. unfold x_insert, insert. cbn [d_pmap d_grid d_tris d_free d_super d_num d_unique].
  cbn [flat_map own_b] in GB. pose proof (x_add_point_ok (m_b m) (x_pm x) (flat_map own_b l) p GB) as AP. destruct (x_add_point grow (m_b m) (x_pm x) p) as [[[hb pm] c]|]; [|rewrite AP; reflexivity]. destruct AP as (-> & GB' & SB).
  unfold group. set (ts := tstate_of m x) in *. set (sh := x_shape x). set (xy := point_cell sh p). change (point_cell (vg sh ts) p) with xy.
  assert (CV : cell (vg sh ts) (fst xy) (snd xy) = option_map (elems (t_hi ts)) (xcell (t_cells ts) xy)) by (unfold vg; apply cell_view). change (t_cells ts) with (x_cells x) in CV.
  destruct xy as [cx cy] eqn:EXY. cbn [fst snd] in CV. rewrite CV. destruct (xcell (x_cells x) (cx, cy)) as [grp|] eqn:EG; [|reflexivity]. cbn [option_map].
  assert (VG : valid_hd (t_hi ts) grp). { eapply cell_good; [|exact EG]. eapply good_perm; [apply free_perm|exact (proj2 TO)]. }
  rewrite (elems_length _ _ VG).
  cbn [flat_map own_e app] in GE. destruct (cut_step (m_e m) (x_edges x) 0 (good_head _ _ _ GE) ltac:(lia)) as [SC QC]. destruct (good_step _ _ _ _ _ GE SC) as [GE1 _]. cbn [firstn] in QC.
  pose proof (x_circles_loop_ok p sh grp (x_tris x) (flat_map own_t l) (flat_map own_i l) (flat_map own_e l) (cx, cy) (h_len grp) 0 ts (m_e m) (Hd (h_arr (x_edges x)) 0) grp TO GE1 eq_refl EG eq_refl ltac:(lia) ltac:(lia)) as CL.
  rewrite QC in CL. destruct (x_circles_loop grow (h_len grp) 0 p sh grp (x_tris x) ts (m_e m, Hd (h_arr (x_edges x)) 0)) as [[ts1 [he edges]]|]; [|rewrite CL; reflexivity]. destruct CL as (-> & O1 & S1 & GE2 & SE).
  cbn [fst snd]. pose proof (x_connect_ok p sh he edges (flat_map own_t l) (flat_map own_i l) (elems he edges) [] ts1 eq_refl O1) as CO. cbn [length] in CO. rewrite (elems_length _ _ (good_head _ _ _ GE2)) in CO.
  destruct (foldM (x_connect grow p sh (he, edges)) (seq 0 (h_len edges)) ts1) as [ts2|]; [|rewrite CO; reflexivity]. destruct CO as (-> & [O2 O2'] & S2). destruct (ts_same_trans _ _ _ _ _ S1 S2) as [S3 S3'].
  split; [reflexivity|]. split; [refine (conj _ (conj _ (conj _ (conj _ (conj _ _))))); cbn [flat_map own_t own_i own_b own_e own_p own_r x_tris x_free x_cells x_pm x_edges x_hull x_ears m_t m_i m_b m_e m_p m_r app]; first [exact O2|exact O2'|exact GB'|exact GE2|exact GP|exact GR]|].
  split; [exact S3|split; [exact S3'|exact SB]].
Qed.

(* ---------------------------------------------------------------- *)
(** * Remove *)
Lemma x_hull_add_ok p h s F po : good h (s :: F) -> forall h' s', x_hull_add grow p (h, s) po = (h', s') -> elems h' s' = hull_add p (elems h s) po /\ good h' (s' :: F) /\ same h h' F.
Proof.
  intros G h' s'. unfold x_hull_add, hull_add. cbn [fst snd]. destruct (peq po p); [injection 1 as <- <-; split; [reflexivity|split; [exact G|apply same_refl]]|].
  destruct (existsb (peq po) (elems h s)); [injection 1 as <- <-; split; [reflexivity|split; [exact G|apply same_refl]]|]. intros E. destruct (push_step _ _ _ _ _ _ _ (good_head _ _ _ G) E) as [Q S]. destruct (good_step _ _ _ _ _ G S) as [G' S']. auto.
Qed.
Lemma x_vertex_loop_ok p sh grp trs FT FI FP xy : forall n i ts hp hull c, ts_ok ts FT FI -> good hp (hull :: FP) -> t_tris ts = trs -> xcell (t_cells ts) xy = Some c -> h_arr c = h_arr grp -> i + n <= h_len c -> i + n <= h_len grp ->
  match x_vertex_loop grow n i p sh grp trs ts (hp, hull) with
  | None => remove_vertex_loop n i p xy (vt ts) (vg sh ts) (vf ts) (elems hp hull) = None
  | Some (ts', (hp', hull')) => remove_vertex_loop n i p xy (vt ts) (vg sh ts) (vf ts) (elems hp hull) = Some (vt ts', vg sh ts', vf ts', elems hp' hull') /\
      ts_ok ts' FT FI /\ ts_same ts ts' FT FI /\ good hp' (hull' :: FP) /\ same hp hp' FP
  end.
Proof.
  induction n as [|n IH]; intros i ts hp hull c O GP ET Ec EA L1 L2; cbn [x_vertex_loop remove_vertex_loop].
  - split; [reflexivity|]. split; [exact O|]. split; [apply ts_same_refl|]. split; [exact GP|apply same_refl].
  - assert (CV : cell (vg sh ts) (fst xy) (snd xy) = Some (elems (t_hi ts) c)) by (unfold vg; rewrite cell_view, Ec; reflexivity). rewrite CV.
    rewrite (at_shared (t_hi ts) grp c i (eq_sym EA)) by lia. unfold at_ at 1. rewrite znth_nat. destruct (nth_error (elems (t_hi ts) c) i) as [t|]; [|reflexivity].
    unfold at_ at 1. rewrite <- ET. fold (vt ts). destruct (znth (vt ts) t) as [tri|] eqn:Et; [|reflexivity]. destruct (has_vertex tri p).
    + unfold at_ at 1. fold (vt ts). rewrite Et. destruct (x_hull_add grow p (hp, hull) (d_a tri)) as [hp1 hull1] eqn:E1. destruct (x_hull_add grow p (hp1, hull1) (d_b tri)) as [hp2 hull2] eqn:E2. destruct (x_hull_add grow p (hp2, hull2) (d_c tri)) as [hp3 hull3] eqn:E3.
      destruct (x_hull_add_ok p _ _ _ _ GP _ _ E1) as (Q1 & G1 & SP1). destruct (x_hull_add_ok p _ _ _ _ G1 _ _ E2) as (Q2 & G2 & SP2). destruct (x_hull_add_ok p _ _ _ _ G2 _ _ E3) as (Q3 & G3 & SP3). cbv zeta.
      pose proof (x_mark_free_ok sh ts t FT FI O) as MF. destruct (x_mark_free grow ts t) as [ts1|]; [|rewrite MF; reflexivity]. destruct MF as (-> & VG & TC & TT & O1 & S1). rewrite <- VG.
      assert (Ec1 : xcell (t_cells ts1) xy = Some c) by (rewrite TC; exact Ec). pose proof (remove_group sh ts1 FT FI tri t xy c O1 Ec1) as R. destruct (x_grid_remove sh (t_hi ts1) (t_cells ts1) tri t) as [[hi cells]|]; [|rewrite R; reflexivity].
      cbv zeta in R. set (ts2 := TS (t_ht ts1) (t_tris ts1) hi cells (t_free ts1)) in *. destruct R as (-> & VF & O2 & S2 & c' & Ec' & A' & L'). rewrite <- VF. change (vt ts1) with (vt ts2). rewrite <- Q1, <- Q2, <- Q3, ET.
      specialize (IH i ts2 hp3 hull3 c' O2 G3 ltac:(cbn; congruence) Ec' ltac:(congruence) ltac:(lia) ltac:(lia)). destruct (x_vertex_loop grow n i p sh grp trs ts2 (hp3, hull3)) as [[ts3 [hp4 hull4]]|]; [|exact IH].
      destruct IH as (E4 & O4 & S4 & G4 & SP4). split; [exact E4|]. split; [exact O4|]. split; [exact (ts_same_trans _ _ _ _ _ S1 (ts_same_trans _ _ _ _ _ S2 S4))|]. split; [exact G4|].
      exact (same_trans _ _ _ _ SP1 (same_trans _ _ _ _ SP2 (same_trans _ _ _ _ SP3 SP4))).
    + rewrite ET. exact (IH (S i) ts hp hull c O GP ET Ec EA ltac:(lia) ltac:(lia)).
Qed.

Lemma nth_error_at {A} (l : list A) i d : i < length l -> nth_error l i = Some (nth i l d).
Proof. apply nth_error_nth'. Qed.
Lemma x_init_ear_ok p hp hull F : valid_hd hp hull -> forall l h s, (forall i, In i l -> i < h_len hull) -> good h (s :: F) ->
  exists h' s', foldM (x_init_ear grow p (hp, hull)) l (h, s) = Some (h', s') /\
    elems h' s' = elems h s ++ map (fun i => let at_ k := nth ((i + k) mod length (elems hp hull)) (elems hp hull) (Pt 0 0) in mk_ear p (at_ 0) (at_ 1) (at_ 2)) l /\ good h' (s' :: F) /\ same h h' F.
Proof.
  intros VH. rewrite (elems_length _ _ VH). induction l as [|i l IH]; intros h s B G; cbn [foldM map].
  - exists h, s. rewrite app_nil_r. split; [reflexivity|]. split; [reflexivity|]. split; [exact G|apply same_refl].
  - pose proof (B i (or_introl eq_refl)) as Bi. assert (K : forall k, at_ hp hull (Z.of_nat ((i + k) mod h_len hull)) = Some (nth ((i + k) mod h_len hull) (elems hp hull) (Pt 0 0))).
    { intros k. unfold at_. rewrite znth_nat. apply nth_error_at. rewrite (elems_length _ _ VH). apply Nat.mod_upper_bound. lia. }
    unfold x_init_ear at 1. cbn [fst snd]. rewrite !K. destruct (push zero_ear (grow ear) (h, s) _) as [h1 s1] eqn:E. destruct (push_step _ _ _ _ _ _ _ (good_head _ _ _ G) E) as [Q S]. destruct (good_step _ _ _ _ _ G S) as [G' S'].
    destruct (IH h1 s1 (fun j I => B j (or_intror I)) G') as (h2 & s2 & E2 & Q2 & G2 & S2). exists h2, s2. split; [exact E2|]. split; [rewrite Q2, Q, <- app_assoc; reflexivity|]. split; [exact G2|exact (same_trans _ _ _ _ S' S2)].
Qed.
Lemma zset_nat {A} (l : list A) i v : i < length l -> zset l (Z.of_nat i) v = Some (set_nth i v l).
Proof. intros L. unfold zset. rewrite znth_nat, Nat2Z.id. destruct (nth_error l i) eqn:E; [reflexivity|]. apply nth_error_None in E. lia. Qed.
Lemma x_cut_ear_ok p h s F index : good h (s :: F) -> 3 < h_len s -> index < h_len s ->
  exists h' s', x_cut_ear p (h, s) index = Some (h', s') /\ elems h' s' = cut_ear p (elems h s) index /\ h_len s' = h_len s - 1 /\ good h' (s' :: F) /\ same h h' F.
Proof.
  intros G L3 LI. pose proof (good_head _ _ _ G) as V. pose proof (elems_length h s V) as EL. unfold x_cut_ear, cut_ear. cbv zeta. rewrite EL. set (es := elems h s) in *. set (n := h_len s) in *.
  set (before := if index =? 0 then n - 1 else index - 1). set (after := (index + 1) mod n). assert (LB : before < n) by (subst before; destruct (Nat.eqb_spec index 0); lia). assert (LA : after < n) by (apply Nat.mod_upper_bound; lia).
  assert (NB : before <> index) by (subst before; destruct (Nat.eqb_spec index 0); lia). set (e := nth index es (Ear p p p f0)).
  assert (E1 : at_ h s (Z.of_nat index) = Some e) by (unfold at_; rewrite znth_nat; apply nth_error_at; fold es; lia). rewrite E1.
  assert (E2 : at_ h s (Z.of_nat before) = Some (nth before es e)) by (unfold at_; rewrite znth_nat; apply nth_error_at; fold es; lia). rewrite E2.
  set (v1 := mk_ear p (e_a (nth before es e)) (e_b (nth before es e)) (e_c e)). pose proof (put_spec h s (Z.of_nat before) v1 V) as P1. fold es in P1. rewrite zset_nat in P1 by lia.
  destruct (put h s (Z.of_nat before) v1) as [h1|]; [|discriminate]. destruct P1 as [P1 ST1]. injection P1 as P1. destruct (good_step _ _ _ _ _ G ST1) as [G1 SF1]. set (es1 := set_nth before v1 es) in *.
  assert (L1 : length es1 = n) by (unfold es1; rewrite set_nth_length; exact EL).
  assert (E3 : at_ h1 s (Z.of_nat index) = Some e). { unfold at_. rewrite znth_nat, <- P1, (nth_error_at _ _ (Ear p p p f0)) by lia. f_equal. unfold es1. rewrite nth_set_nth. destruct (Nat.eqb_spec before index); [contradiction|]. reflexivity. }
  rewrite E3. assert (E4 : at_ h1 s (Z.of_nat after) = Some (nth after es1 e)) by (unfold at_; rewrite znth_nat, <- P1; apply nth_error_at; lia). rewrite E4.
  set (v2 := mk_ear p (e_a e) (e_b (nth after es1 e)) (e_c (nth after es1 e))). pose proof (put_spec h1 s (Z.of_nat after) v2 (good_head _ _ _ G1)) as P2. rewrite <- P1 in P2. rewrite zset_nat in P2 by lia.
  destruct (put h1 s (Z.of_nat after) v2) as [h2|]; [|discriminate]. destruct P2 as [P2 ST2]. injection P2 as P2. destruct (good_step _ _ _ _ _ G1 ST2) as [G2 SF2].
  destruct (close_spec h2 s index (good_head _ _ _ G2) LI) as (h3 & E5 & Q5 & ST3). destruct (good_step _ _ _ _ _ G2 ST3) as [G3 SF3]. exists h3, (Hd (h_arr s) (h_len s - 1)). split; [exact E5|]. split; [rewrite Q5, <- P2; reflexivity|]. split; [reflexivity|]. split; [exact G3|].
  exact (same_trans _ _ _ _ SF1 (same_trans _ _ _ _ SF2 SF3)).
Qed.
Lemma lowest_lt : forall es i best index n, index < n -> i + length es <= n -> lowest i best index es < n.
Proof. induction es as [|e es IH]; intros i best index n L1 L2; cbn [lowest length] in *; [exact L1|]. destruct (flt (e_score e) best); apply IH; lia. Qed.

Definition ears_done (p : point) (n : nat) (es : list ear) (st : list dtri * grid * list Z) := match ear_loop n p es with None => None | Some l => add_triangles st l end.
Lemma x_ear_loop_ok p sh FT FI FR : forall n ts hr ears, ts_ok ts FT FI -> good hr (ears :: FR) ->
  match x_ear_loop grow n p sh ts (hr, ears) with
  | None => ears_done p n (elems hr ears) (vt ts, vg sh ts, vf ts) = None
  | Some (ts', (hr', ears')) => ears_done p n (elems hr ears) (vt ts, vg sh ts, vf ts) = Some (vt ts', vg sh ts', vf ts') /\ ts_ok ts' FT FI /\ ts_same ts ts' FT FI /\ good hr' (ears' :: FR) /\ same hr hr' FR
  end.
Proof.
  induction n as [|n IH]; intros ts hr ears O GR; [reflexivity|]. pose proof (good_head _ _ _ GR) as V. pose proof (elems_length _ _ V) as EL. unfold ears_done. cbn [x_ear_loop ear_loop fst snd]. rewrite EL.
  destruct (Nat.ltb_spec 3 (h_len ears)) as [L3|L3].
  - cbv zeta. set (index := lowest 0 max_float64 0 (elems hr ears)). assert (LI : index < h_len ears) by (apply lowest_lt; lia).
    unfold at_. rewrite znth_nat. destruct (nth_error (elems hr ears) index) as [e|] eqn:E; [|apply nth_error_None in E; lia].
    set (nt := new_triangle (e_a e) (e_b e) (e_c e)). pose proof (x_add_triangle_ok sh ts nt FT FI O) as AT.
    assert (K : forall r, match option_map (cons (e_a e, e_b e, e_c e)) r with None => None | Some l => add_triangles (vt ts, vg sh ts, vf ts) l end = match r with None => None | Some l => match add_triangle (vt ts) (vg sh ts) (vf ts) nt with None => None | Some st => add_triangles st l end end) by (intros [r|]; reflexivity).
    rewrite K. destruct (x_add_triangle grow sh ts nt) as [ts1|]; [|rewrite AT; destruct (ear_loop n p _); reflexivity]. destruct AT as (-> & O1 & S1).
    destruct (x_cut_ear_ok p hr ears FR index GR L3 LI) as (hr1 & ears1 & -> & Q1 & _ & G1 & SR1). rewrite <- Q1. specialize (IH ts1 hr1 ears1 O1 G1). unfold ears_done in IH.
    destruct (x_ear_loop grow n p sh ts1 (hr1, ears1)) as [[ts2 [hr2 ears2]]|]; [|exact IH]. destruct IH as (E2 & O2 & S2 & G2 & SR2). split; [exact E2|]. split; [exact O2|]. split; [exact (ts_same_trans _ _ _ _ _ S1 S2)|]. split; [exact G2|exact (same_trans _ _ _ _ SR1 SR2)].
  - unfold at_. change 0%Z with (Z.of_nat 0). rewrite znth_nat. destruct (elems hr ears) as [|e es]; [reflexivity|]. cbn [nth_error]. unfold add_triangles. cbn [foldM].
    pose proof (x_add_triangle_ok sh ts (new_triangle (e_a e) (e_b e) (e_c e)) FT FI O) as AT. destruct (x_add_triangle grow sh ts (new_triangle (e_a e) (e_b e) (e_c e))) as [ts1|]; cbn [option_map]; [|rewrite AT; reflexivity]. destruct AT as (-> & O1 & S1).
    split; [reflexivity|]. split; [exact O1|]. split; [exact S1|]. split; [exact GR|apply same_refl].
Qed.

Lemma x_remove_ok sort m x l p : (forall a b, sort a = Some b -> length b = length a) -> mem_ok m (x :: l) ->
  match x_remove grow sort m x p with
  | None => remove sort (view m x) p = None
  | Some (m', x') => remove sort (view m x) p = Some (view m' x') /\ mem_ok m' (x' :: l) /\ mem_same m m' l
  end.
Proof.
  intros SL O. pose proof (state_ok _ _ _ O) as TO. destruct O as (GT & GI & GB & GE & GP & GR). rewrite view_state. unfold x_remove, remove, remove_star. cbn [d_pmap d_grid d_tris d_free d_super d_num d_unique].
  cbn [flat_map own_b] in GB. pose proof (x_remove_point_ok (m_b m) (x_pm x) (flat_map own_b l) p GB) as AP. destruct (x_remove_point (m_b m) (x_pm x) p) as [[[hb pm] c]|]; [|rewrite AP; reflexivity]. destruct AP as (-> & GB' & SB).
  destruct (negb (c =? 0)%Z).
  - split; [reflexivity|]. split; [refine (conj _ (conj _ (conj _ (conj _ (conj _ _))))); cbn [flat_map own_t own_i own_b own_e own_p own_r x_tris x_free x_cells x_pm x_edges x_hull x_ears m_t m_i m_b m_e m_p m_r app]; first [exact GT|exact GI|exact GB'|exact GE|exact GP|exact GR]|].
    split; [apply same_refl|split; [apply same_refl|exact SB]].
  - unfold group. set (ts := tstate_of m x) in *. set (sh := x_shape x). set (xy := point_cell sh p). change (point_cell (vg sh ts) p) with xy.
    assert (CV : cell (vg sh ts) (fst xy) (snd xy) = option_map (elems (t_hi ts)) (xcell (t_cells ts) xy)) by (unfold vg; apply cell_view). change (t_cells ts) with (x_cells x) in CV.
    destruct xy as [cx cy] eqn:EXY. cbn [fst snd] in CV. rewrite CV. destruct (xcell (x_cells x) (cx, cy)) as [grp|] eqn:EG; [|reflexivity]. cbn [option_map].
    assert (VG : valid_hd (t_hi ts) grp). { eapply cell_good; [|exact EG]. eapply good_perm; [apply free_perm|exact (proj2 TO)]. }
    rewrite (elems_length _ _ VG).
    cbn [flat_map own_p own_r app] in GP, GR. destruct (cut_step (m_p m) (x_hull x) 0 (good_head _ _ _ GP) ltac:(lia)) as [SC QC]. destruct (good_step _ _ _ _ _ GP SC) as [GP1 _]. cbn [firstn] in QC.
    pose proof (x_vertex_loop_ok p sh grp (x_tris x) (flat_map own_t l) (flat_map own_i l) (flat_map own_p l) (cx, cy) (h_len grp) 0 ts (m_p m) (Hd (h_arr (x_hull x)) 0) grp TO GP1 eq_refl EG eq_refl ltac:(lia) ltac:(lia)) as CL.
    rewrite QC in CL. destruct (x_vertex_loop grow (h_len grp) 0 p sh grp (x_tris x) ts (m_p m, Hd (h_arr (x_hull x)) 0)) as [[ts1 [hp hull]]|]; [|rewrite CL; reflexivity]. destruct CL as (-> & O1 & S1 & GP2 & SP).
    destruct (sort (elems hp hull)) as [sorted|] eqn:ES; [|reflexivity]. pose proof (good_head _ _ _ GP2) as VH. pose proof (SL _ _ ES) as LS. rewrite (elems_length _ _ VH) in LS.
    destruct (overwrite_ok hp hull sorted VH LS) as (Q2 & V2 & T2). assert (ST2 : step hp (overwrite hp hull sorted) hull hull) by (split; [exact V2|split; [exact T2|left; reflexivity]]). destruct (good_step _ _ _ _ _ GP2 ST2) as [GP3 SP3]. cbv zeta. set (hp' := overwrite hp hull sorted) in *.
    destruct (cut_step (m_r m) (x_ears x) 0 (good_head _ _ _ GR) ltac:(lia)) as [SD QD]. destruct (good_step _ _ _ _ _ GR SD) as [GR1 _]. cbn [firstn] in QD.
    destruct (x_init_ear_ok p hp' hull (flat_map own_r l) V2 (seq 0 (h_len hull)) (m_r m) (Hd (h_arr (x_ears x)) 0) ltac:(intros i I; apply in_seq in I; lia) GR1) as (hr & ears & -> & QE & GR2 & SR).
    rewrite QD, Q2, <- LS in QE. cbn [app] in QE. change (elems hr ears = init_ears p sorted) in QE.
    pose proof (x_ear_loop_ok p sh (flat_map own_t l) (flat_map own_i l) (flat_map own_r l) (S (h_len hull)) ts1 hr ears O1 GR2) as EL. rewrite QE in EL. unfold ears_done in EL. rewrite LS.
    destruct (x_ear_loop grow (S (h_len hull)) p sh ts1 (hr, ears)) as [[ts2 [hr2 ears2]]|].
    + destruct EL as (EL & [O2 O2'] & S2 & GR3 & SR3). destruct (ear_loop (S (h_len hull)) p (init_ears p sorted)) as [tr|]; [|discriminate]. rewrite EL. destruct (ts_same_trans _ _ _ _ _ S1 S2) as [S3 S3'].
      split; [reflexivity|]. split; [refine (conj _ (conj _ (conj _ (conj _ (conj _ _))))); cbn [flat_map own_t own_i own_b own_e own_p own_r x_tris x_free x_cells x_pm x_edges x_hull x_ears m_t m_i m_b m_e m_p m_r app]; first [exact O2|exact O2'|exact GB'|exact GE|exact GP3|exact GR3]|].
      split; [exact S3|split; [exact S3'|exact SB]].
    + destruct (ear_loop (S (h_len hull)) p (init_ears p sorted)) as [tr|]; [|reflexivity]. rewrite EL. reflexivity.
Qed.

(* ---------------------------------------------------------------- *)
(** * Set *)
Definition cells_set {A} (a b : list (list (list A))) : option (list (list (list A))) :=
  mapM (fun i => match nth_error a i, nth_error b i with Some c, Some c' => table_set c c' | _, _ => None end) (seq 0 (length a)).
Lemma cells_set_cons {A} (c : list (list A)) a b : cells_set (c :: a) b = match b with [] => None | c' :: b' => match table_set c c' with None => None | Some d => option_map (cons d) (cells_set a b') end end.
Proof.
  unfold cells_set. cbn [length seq mapM nth_error]. destruct b as [|c' b]; [reflexivity|]. cbn [nth_error]. destruct (table_set c c') as [d|]; [|reflexivity].
  assert (SH : forall n k, mapM (fun i => match nth_error (c :: a) i, nth_error (c' :: b) i with Some c, Some c' => table_set c c' | _, _ => None end) (seq (S k) n) =
     mapM (fun i => match nth_error a i, nth_error b i with Some c, Some c' => table_set c c' | _, _ => None end) (seq k n)).
  { induction n as [|n IH]; intros k; cbn [seq mapM]; [reflexivity|]. cbn [nth_error]. rewrite IH. reflexivity. }
  rewrite SH. destruct (mapM _ _); reflexivity.
Qed.
Lemma rows_spec {A} (zero : A) : forall l o h F, good h (concat l ++ F) -> incl (concat o) F ->
  match rows_set zero h l o with
  | None => cells_set (map (map (elems h)) l) (map (map (elems h)) o) = None
  | Some (h', l') => cells_set (map (map (elems h)) l) (map (map (elems h)) o) = Some (map (map (elems h')) l') /\ good h' (concat l' ++ F) /\ same h h' F
  end.
Proof.
  induction l as [|r l IH]; intros o h F G I; cbn [rows_set].
  - split; [reflexivity|]. split; [exact G|apply same_refl].
  - destruct o as [|q o]; [cbn [map]; rewrite cells_set_cons; reflexivity|]. cbn [concat] in G, I. rewrite <- app_assoc in G. cbn [map]. rewrite cells_set_cons.
    pose proof (row_spec zero r q h (concat l ++ F) G ltac:(intros x J; apply in_or_app; right; apply I, in_or_app; left; exact J)) as RS. destruct (row_set zero h r q) as [[h1 r1]|]; [|rewrite RS; reflexivity]. destruct RS as (-> & G1 & S1).
    assert (G2 : good h1 (concat l ++ (r1 ++ F))). { eapply good_perm; [|exact G1]. apply Permutation_app_swap_app. }
    specialize (IH o h1 (r1 ++ F) G2 ltac:(intros x J; apply in_or_app; right; apply I, in_or_app; right; exact J)).
    assert (EQ1 : map (map (elems h1)) l = map (map (elems h)) l). { apply map_ext_in. intros c J. apply same_map. intros x K. apply S1, in_or_app. left. apply in_concat. eauto. }
    assert (EQ2 : map (map (elems h1)) o = map (map (elems h)) o). { apply map_ext_in. intros c J. apply same_map. intros x K. apply S1, in_or_app. right. apply I, in_or_app. right. apply in_concat. eauto. }
    rewrite EQ1, EQ2 in IH. destruct (rows_set zero h1 l o) as [[h2 l2]|]; cbn [option_map fst snd]; [|rewrite IH; reflexivity]. destruct IH as (T & G3 & S3). rewrite T. cbn [option_map map concat]. split; [|split].
    + f_equal. f_equal. symmetry. apply same_map. intros x J. apply S3, in_or_app. left. exact J.
    + eapply good_perm; [|exact G3]. rewrite <- app_assoc. apply Permutation_app_swap_app.
    + intros x J. rewrite (S3 x) by (apply in_or_app; right; exact J). apply S1, in_or_app. right. exact J.
Qed.
Lemma good_other {A} (h : list (list A)) s l t : good h (s :: l) -> In t l -> valid_hd h t /\ h_arr t <> h_arr s.
Proof.
  intros [V N] I. rewrite Forall_forall in V. split; [apply V; right; exact I|]. cbn [map] in N. inversion N as [|? ? K _]; subst. intros e. apply K. rewrite <- e. apply in_map, I.
Qed.
Lemma x_set_ok m x l o : mem_ok m (x :: l) -> In o l ->
  match x_set m x o with
  | None => d_set (view m x) (view m o) = None
  | Some (m', x') => d_set (view m x) (view m o) = Some (view m' x') /\ mem_ok m' (x' :: l) /\ mem_same m m' l
  end.
Proof.
  intros (GT & GI & GB & GE & GP & GR) IO. cbn [flat_map own_t own_i own_b app] in GT, GI, GB. unfold x_set, d_set, view, grid_set. cbv zeta. cbn [d_grid d_pmap d_tris d_free d_super d_num d_unique g_cells g_cols g_rows g_rowpx g_colpx].
  destruct (slice_set zero_tri (m_t m) (x_tris x) (x_tris o)) as [ht tris] eqn:ET. destruct (slice_set 0%Z (m_i m) (x_free x) (x_free o)) as [hi free] eqn:EF.
  assert (IT : In (x_tris o) (flat_map own_t l)) by (apply in_flat_map; exists o; split; [exact IO|left; reflexivity]).
  assert (IF : forall t, In t (own_i o) -> In t (flat_map own_i l)) by (intros t J; apply in_flat_map; exists o; split; assumption).
  destruct (good_other _ _ _ _ GT IT) as [VT NT]. destruct (set_spec zero_tri _ _ _ _ _ (good_head _ _ _ GT) VT NT ET) as [QT ST]. destruct (good_step _ _ _ _ _ GT ST) as [GT1 ST1].
  destruct (good_other _ _ _ (x_free o) GI ltac:(apply in_or_app; right; apply IF; left; reflexivity)) as [VF NF]. destruct (set_spec 0%Z _ _ _ _ _ (good_head _ _ _ GI) VF NF EF) as [QF SF]. destruct (good_step _ _ _ _ _ GI SF) as [GI1 SI1].
  assert (GI2 : good hi (concat (x_cells x) ++ free :: flat_map own_i l)) by (eapply good_perm; [apply free_perm|exact GI1]).
  pose proof (rows_spec 0%Z (x_cells x) (x_cells o) hi _ GI2 ltac:(intros t J; right; apply IF; right; exact J)) as RS. unfold cells_set in RS.
  assert (EQ1 : map (map (elems hi)) (x_cells x) = map (map (elems (m_i m))) (x_cells x)). { apply map_ext_in. intros c J. apply same_map. intros t K. apply SI1, in_or_app. left. apply in_concat. eauto. }
  assert (EQ2 : map (map (elems hi)) (x_cells o) = map (map (elems (m_i m))) (x_cells o)). { apply map_ext_in. intros c J. apply same_map. intros t K. apply SI1, in_or_app. right. apply IF. right. apply in_concat. eauto. }
  rewrite EQ1, EQ2 in RS. destruct (rows_set 0%Z hi (x_cells x) (x_cells o)) as [[hi2 cells]|]; [|rewrite RS; reflexivity]. destruct RS as (-> & GI3 & SI3).
  pose proof (row_spec zero_entry (x_pm x) (x_pm o) (m_b m) (flat_map own_b l) GB ltac:(intros t J; apply in_flat_map; exists o; split; assumption)) as RB. destruct (row_set zero_entry (m_b m) (x_pm x) (x_pm o)) as [[hb pm]|]; [|rewrite RB; reflexivity]. destruct RB as (-> & GB1 & SB1).
  cbn [x_tris x_shape x_cells x_pm x_free x_super x_num x_unique m_t m_i m_b]. split; [|split].
  - f_equal. f_equal; [symmetry; exact QT|]. f_equal. rewrite (SI3 free (or_introl eq_refl)). symmetry. exact QF.
  - refine (conj _ (conj _ (conj _ (conj _ (conj _ _))))); cbn [flat_map own_t own_i own_b own_e own_p own_r x_tris x_free x_cells x_pm x_edges x_hull x_ears m_t m_i m_b m_e m_p m_r app]; first [exact GT1|exact GB1|exact GE|exact GP|exact GR|idtac].
    eapply good_perm; [apply Permutation_sym, free_perm|exact GI3].
  - split; [exact ST1|]. split; [|exact SB1]. intros t J. cbn [m_i]. rewrite (SI3 t (or_intror J)). apply SI1, in_or_app. right. exact J.
Qed.

(* ---------------------------------------------------------------- *)
(** * NewDelaunay *)
Lemma nil_row_ok {A} (zero : A) : forall n h F, good h F -> forall h' l, nil_row zero h n = (h', l) -> map (elems h') l = repeat [] n /\ good h' (l ++ F) /\ same h h' F.
Proof.
  induction n as [|n IH]; intros h F G h' l; cbn [nil_row].
  - injection 1 as <- <-. split; [reflexivity|]. split; [exact G|apply same_refl].
  - destruct (make_empty zero h 0) as [h1 s] eqn:E. destruct (nil_row zero h1 n) as [h2 l2] eqn:E2. injection 1 as <- <-. destruct (make_step zero _ _ _ _ G E) as (Q & G1 & S1). destruct (IH h1 (s :: F) G1 _ _ E2) as (Q2 & G2 & S2).
    cbn [map repeat app]. rewrite (S2 s (or_introl eq_refl)), Q, Q2. split; [reflexivity|]. split; [eapply good_perm; [apply Permutation_sym, Permutation_middle|exact G2]|]. intros t I. rewrite (S2 t (or_intror I)). apply S1, I.
Qed.
Lemma nil_rows_ok {A} (zero : A) n : forall k h F, good h F -> forall h' l, nil_rows zero h n k = (h', l) -> map (map (elems h')) l = repeat (repeat [] n) k /\ good h' (concat l ++ F) /\ same h h' F.
Proof.
  induction k as [|k IH]; intros h F G h' l; cbn [nil_rows].
  - injection 1 as <- <-. split; [reflexivity|]. split; [exact G|apply same_refl].
  - destruct (nil_row zero h n) as [h1 r] eqn:E. destruct (nil_rows zero h1 n k) as [h2 l2] eqn:E2. injection 1 as <- <-. destruct (nil_row_ok zero n _ _ G _ _ E) as (Q & G1 & S1). destruct (IH h1 (r ++ F) G1 _ _ E2) as (Q2 & G2 & S2).
    cbn [map repeat concat]. rewrite Q2. split; [f_equal; rewrite <- Q; apply same_map; intros t I; apply S2, in_or_app; left; exact I|]. split; [eapply good_perm; [|exact G2]; rewrite <- app_assoc; apply Permutation_app_swap_app|].
    intros t I. rewrite (S2 t) by (apply in_or_app; right; exact I). apply S1, I.
Qed.
Lemma x_new_ok m l w h : mem_ok m l ->
  match x_new grow m w h with
  | None => new_delaunay w h = None
  | Some (m', x') => new_delaunay w h = Some (view m' x') /\ mem_ok m' (x' :: l) /\ mem_same m m' l
  end.
Proof.
  intros (GT & GI & GB & GE & GP & GR). unfold x_new. set (sp := new_super_triangle w h). set (sh := Grid [] 10 10 (fdiv (f64_of_Z h) (f64_of_Z 10)) (fdiv (f64_of_Z w) (f64_of_Z 10))).
  destruct (make_empty zero_tri (m_t m) 0) as [ht tris] eqn:ET. destruct (nil_rows 0%Z (m_i m) 10 10) as [hi cells] eqn:EC. destruct (make_empty 0%Z hi 0) as [hi1 free] eqn:EF. destruct (nil_row zero_entry (m_b m) 100) as [hb pm] eqn:EB.
  destruct (make_empty zero_edge (m_e m) 0) as [he edges] eqn:EE. destruct (make_empty (Pt 0 0) (m_p m) 0) as [hp hull] eqn:EP. destruct (make_empty zero_ear (m_r m) 0) as [hr ears] eqn:ER.
  destruct (make_step _ _ _ _ _ GT ET) as (QT & GT1 & ST). destruct (nil_rows_ok _ _ _ _ _ GI _ _ EC) as (QC & GC & SC). destruct (make_step _ _ _ _ _ GC EF) as (QF & GF & SF). destruct (nil_row_ok _ _ _ _ GB _ _ EB) as (QB & GB1 & SB).
  destruct (make_step _ _ _ _ _ GE EE) as (_ & GE1 & _). destruct (make_step _ _ _ _ _ GP EP) as (_ & GP1 & _). destruct (make_step _ _ _ _ _ GR ER) as (_ & GR1 & _).
  set (ts := TS ht tris hi1 cells free). assert (O : ts_ok ts (flat_map own_t l) (flat_map own_i l)) by (split; [exact GT1|exact GF]).
  assert (V1 : vt ts = []) by exact QT. assert (V2 : vf ts = []) by (unfold vf; cbn [t_hi t_free ts]; rewrite QF; reflexivity).
  assert (V3 : new_grid 10 10 w h = Some (vg sh ts)).
  { unfold new_grid. change ((10 <? 0)%Z || ((0 <? 10)%Z && (10 <? 0)%Z)) with false. cbv iota. f_equal. unfold vg, gview. cbn [t_hi t_cells ts sh g_cols g_rows g_rowpx g_colpx]. f_equal. change (Z.to_nat 10) with 10. rewrite <- QC. symmetry. apply map_ext_in. intros c J. apply same_map. intros t K. apply SF, in_or_app. left. apply in_concat. eauto. }
  assert (V4 : new_point_map 100 = Some (map (elems hb) pm)) by (rewrite QB; reflexivity).
  unfold new_delaunay. cbv zeta. fold sp. rewrite V3, V4. assert (V5 : add_triangle [] (vg sh ts) [] sp = add_triangle (vt ts) (vg sh ts) (vf ts) sp) by (rewrite V1, V2; reflexivity). rewrite V5. pose proof (x_add_triangle_ok sh ts sp _ _ O) as AT. destruct (x_add_triangle grow sh ts sp) as [ts1|]; [|rewrite AT; reflexivity]. destruct AT as (-> & [O1 O1'] & [S1 S1']).
  split; [reflexivity|]. split; [refine (conj _ (conj _ (conj _ (conj _ (conj _ _))))); cbn [flat_map own_t own_i own_b own_e own_p own_r x_tris x_free x_cells x_pm x_edges x_hull x_ears m_t m_i m_b m_e m_p m_r app]; first [exact O1|exact O1'|exact GB1|exact GE1|exact GP1|exact GR1]|].
  split; [exact (same_trans _ _ _ _ ST S1)|]. split; [|exact SB]. intros t I. cbn [m_i]. rewrite (S1' t I). cbn [t_hi ts]. rewrite (SF t) by (apply in_or_app; right; exact I). apply SC, I.
Qed.

(* ---------------------------------------------------------------- *)
(** * Programs *)
Definition pool_ok (s : pool) : Prop := mem_ok (w_mem s) (w_all s).
Lemma set_nth_split {A} (l1 l2 : list A) a b : set_nth (length l1) b (l1 ++ a :: l2) = l1 ++ b :: l2.
Proof. induction l1 as [|x l1 IH]; cbn; [reflexivity|]. f_equal. exact IH. Qed.
(** One triangulation changes, the others are seen as before. *)
Lemma at_pool_ok s k x (r : option (mem * xd)) (v : option delaunay) : pool_ok s -> nth_error (w_all s) k = Some x ->
  (forall l, Permutation (w_all s) (x :: l) -> (forall j y, nth_error (w_all s) j = Some y -> j <> k -> In y l) -> match r with None => v = None | Some (m', x') => v = Some (view m' x') /\ mem_ok m' (x' :: l) /\ mem_same (w_mem s) m' l end) ->
  option_map views (at_pool s k r) = option_map (fun d => set_nth k d (views s)) v /\ forall s', at_pool s k r = Some s' -> pool_ok s'.
Proof.
  intros O E H. apply nth_error_split in E as (l1 & l2 & EQ & L). assert (P : Permutation (w_all s) (x :: l1 ++ l2)) by (rewrite EQ; apply Permutation_sym, Permutation_middle). specialize (H _ P).
  assert (J : forall j y, nth_error (w_all s) j = Some y -> j <> k -> In y (l1 ++ l2)).
  { intros j y Ej N. rewrite EQ in Ej. apply in_or_app. destruct (Nat.lt_ge_cases j (length l1)) as [Lj|Lj].
    - left. rewrite nth_error_app1 in Ej by exact Lj. eapply nth_error_In, Ej.
    - right. rewrite nth_error_app2 in Ej by exact Lj. destruct (j - length l1) as [|q] eqn:EJ; [lia|]. eapply nth_error_In, Ej. }
  specialize (H J). unfold at_pool. destruct r as [[m' x']|]; cbn [option_map fst snd]; [|rewrite H; split; [reflexivity|discriminate]]. destruct H as (-> & O' & S'). cbn [option_map]. rewrite EQ, <- L, set_nth_split. split.
  - f_equal. unfold views. cbn [w_mem w_all]. rewrite EQ, !map_app. cbn [map]. rewrite <- (map_length (view (w_mem s)) l1) at 1. rewrite set_nth_split. f_equal; [|f_equal]; apply map_ext_in; intros y I; apply view_eq; apply (mem_same_in _ _ _ _ S'); apply in_or_app; [left|right]; exact I.
  - intros s' [= <-]. unfold pool_ok. cbn [w_mem w_all]. eapply mem_ok_perm; [apply Permutation_middle|exact O'].
Qed.
Lemma views_nth s k : nth_error (views s) k = option_map (view (w_mem s)) (nth_error (w_all s) k).
Proof. apply nth_error_map. Qed.
Lemma x_step_ok sort s op : keeps_length sort -> two_different op -> pool_ok s -> option_map views (x_step grow sort s op) = l_step sort (views s) op /\ forall s', x_step grow sort s op = Some s' -> pool_ok s'.
Proof.
  intros KL TD O. destruct op as [w h|k p|k p|k o]; cbn [x_step l_step].
  - pose proof (x_new_ok (w_mem s) (w_all s) w h O) as N. destruct (x_new grow (w_mem s) w h) as [[m' x']|]; [|rewrite N; split; [reflexivity|discriminate]]. destruct N as (-> & O' & S'). cbn [option_map fst snd]. split.
    + f_equal. unfold views. cbn [w_mem w_all]. rewrite map_app. cbn [map]. f_equal. apply map_ext_in. intros y I. apply view_eq, (mem_same_in _ _ _ _ S'), I.
    + intros s' [= <-]. unfold pool_ok. cbn [w_mem w_all]. eapply mem_ok_perm; [apply Permutation_cons_append|exact O'].
  - rewrite views_nth. destruct (nth_error (w_all s) k) as [x|] eqn:E; cbn [option_map]; [|split; [reflexivity|discriminate]]. apply (at_pool_ok s k x); [exact O|exact E|]. intros l P _. apply x_insert_ok, (mem_ok_perm _ _ _ P), O.
  - rewrite views_nth. destruct (nth_error (w_all s) k) as [x|] eqn:E; cbn [option_map]; [|split; [reflexivity|discriminate]]. apply (at_pool_ok s k x); [exact O|exact E|]. intros l P _. apply x_remove_ok; [intros a b; apply KL|apply (mem_ok_perm _ _ _ P), O].
  - rewrite !views_nth. destruct (nth_error (w_all s) k) as [x|] eqn:E; cbn [option_map]; [|split; [reflexivity|discriminate]]. destruct (nth_error (w_all s) o) as [y|] eqn:E2; cbn [option_map]; [|split; [reflexivity|discriminate]].
    apply (at_pool_ok s k x); [exact O|exact E|]. intros l P J. apply x_set_ok; [apply (mem_ok_perm _ _ _ P), O|]. apply (J o); [exact E2|]. intros ->. apply TD. reflexivity.
Qed.
Lemma x_run_ok sort : forall ops s, keeps_length sort -> Forall two_different ops -> pool_ok s -> option_map views (x_run grow sort ops s) = l_run sort ops (views s) /\ forall s', x_run grow sort ops s = Some s' -> pool_ok s'.
Proof.
  induction ops as [|op ops IH]; intros s KL FO O; unfold x_run, l_run; cbn [foldM].
  - split; [reflexivity|]. intros s' [= <-]. exact O.
  - inversion FO as [|? ? F1 F2]; subst. destruct (x_step_ok sort s op KL F1 O) as [E O1]. destruct (x_step grow sort s op) as [s1|]; cbn [option_map] in E; rewrite <- E; [|split; [reflexivity|discriminate]]. apply IH; [exact KL|exact F2|apply O1; reflexivity].
Qed.
Lemma no_pool_ok : pool_ok no_pool.
Proof. unfold pool_ok, mem_ok. cbn. assert (K : forall A, good (@nil (list A)) []) by (intros A; split; constructor). refine (conj _ (conj _ (conj _ (conj _ (conj _ _))))); apply K. Qed.
End Ops.
