From Coq Require Import List Arith Lia Bool.
From Verif Require Import M_Slice.
Import ListNotations.

Section Heap.
Context {A : Type}.
Implicit Types h : heap A.

Lemma set_nth_length {B} i (b : B) l : length (set_nth i b l) = length l.
Proof. revert i; induction l; intros [|i]; cbn; auto. Qed.
Lemma set_nth_error {B} i (b : B) l j :
  nth_error (set_nth i b l) j = if Nat.eqb i j && (i <? length l) then Some b else nth_error l j.
Proof.
  revert i j; induction l as [|x t IH]; intros [|i] [|j]; cbn; try reflexivity.
  - now rewrite andb_false_r.
  - rewrite IH. reflexivity.
Qed.

Lemma arr_set_nth h a l b : arr (set_nth a l h) b = if Nat.eqb a b && (a <? length h) then l else arr h b.
Proof.
  unfold arr. revert a b; induction h as [|x t IH]; intros [|a] [|b]; cbn; try reflexivity.
  - now rewrite andb_false_r.
  - rewrite IH. reflexivity.
Qed.

Lemma nth_error_firstn (l : list A) n i : nth_error (firstn n l) i = if i <? n then nth_error l i else None.
Proof.
  revert n i; induction l as [|x t IH]; intros [|n] [|i]; cbn; try reflexivity.
  all: try (match goal with |- context [if ?b then _ else _] => destruct b; reflexivity end).
  rewrite IH. reflexivity.
Qed.
Lemma nth_error_skipn (l : list A) n i : nth_error (skipn n l) i = nth_error l (n + i).
Proof. revert l; induction n; intros l; [reflexivity|]. destruct l; cbn; [now destruct i|apply IHn]. Qed.

Lemma read_nth h s i : nth_error (read h s) i = if i <? s_len s then nth_error (arr h (s_arr s)) (s_off s + i) else None.
Proof. unfold read. rewrite nth_error_firstn, nth_error_skipn. reflexivity. Qed.

Lemma nth_error_ext (l1 l2 : list A) : (forall i, nth_error l1 i = nth_error l2 i) -> l1 = l2.
Proof.
  revert l2; induction l1 as [|x t IH]; intros [|y u] H; try reflexivity; try (specialize (H 0); discriminate).
  pose proof (H 0) as H0. injection H0 as ->. f_equal. apply IH. intros i. apply (H (S i)).
Qed.

Lemma read_length h s : valid h s -> length (read h s) = s_len s.
Proof. intros [_ H]. unfold read. rewrite firstn_length, skipn_length. lia. Qed.

Lemma splice_nth off (vs l : list A) i : off + length vs <= length l ->
  nth_error (splice off vs l) i =
  if (off <=? i) && (i <? off + length vs) then nth_error vs (i - off) else nth_error l i.
Proof.
  intros H. unfold splice.
  destruct (Nat.leb_spec off i) as [Hi|Hi]; cbn [andb].
  - rewrite nth_error_app2 by (rewrite firstn_length; lia). rewrite firstn_length_le by lia.
    destruct (Nat.ltb_spec i (off + length vs)).
    + rewrite nth_error_app1 by lia. reflexivity.
    + rewrite nth_error_app2 by lia. rewrite nth_error_skipn. f_equal. lia.
  - rewrite nth_error_app1 by (rewrite firstn_length; lia). rewrite nth_error_firstn.
    destruct (Nat.ltb_spec i off); [reflexivity|lia].
Qed.
Lemma splice_length off (vs l : list A) : off + length vs <= length l -> length (splice off vs l) = length l.
Proof. intros. unfold splice. rewrite !app_length, firstn_length, skipn_length. lia. Qed.

(** Effect of copy between equally long slices. *)
Lemma copy_vs h p o : valid h o -> s_len p = s_len o ->
  firstn (Nat.min (s_len p) (s_len o)) (read h o) = read h o.
Proof. intros Ho E. apply firstn_all2. rewrite read_length by exact Ho. lia. Qed.

Lemma copy_read_dst h p o : valid h p -> valid h o -> s_len p = s_len o -> read (go_copy h p o) p = read h o.
Proof.
  intros Hp Ho E. unfold go_copy. cbv zeta. rewrite (copy_vs h p o Ho E).
  apply nth_error_ext. intros i. rewrite read_nth, arr_set_nth.
  destruct Hp as [Hp1 Hp2]. rewrite Nat.eqb_refl. destruct (Nat.ltb_spec (s_arr p) (length h)); [|lia]. cbn [andb].
  rewrite splice_nth by (rewrite read_length by exact Ho; lia). rewrite read_length by exact Ho.
  destruct (Nat.ltb_spec i (s_len p)) as [Hi|Hi].
  - destruct (Nat.leb_spec (s_off p) (s_off p + i)); [|lia].
    destruct (Nat.ltb_spec (s_off p + i) (s_off p + s_len o)); [|lia]. cbn [andb]. f_equal. lia.
  - symmetry. apply nth_error_None. rewrite read_length by exact Ho. lia.
Qed.

Lemma copy_frame h p o s : valid h p -> valid h o -> s_len p = s_len o -> disjoint p s ->
  read (go_copy h p o) s = read h s.
Proof.
  intros Hp Ho E D. unfold go_copy. cbv zeta. rewrite (copy_vs h p o Ho E).
  apply nth_error_ext. intros i. rewrite !read_nth, arr_set_nth.
  destruct (Nat.ltb_spec i (s_len s)); [|reflexivity].
  destruct (Nat.eqb_spec (s_arr p) (s_arr s)) as [Ea|]; [|reflexivity]. cbn [andb].
  destruct (Nat.ltb_spec (s_arr p) (length h)); [|reflexivity].
  destruct Hp as [_ Hp]. rewrite splice_nth by (rewrite read_length by exact Ho; lia). rewrite read_length by exact Ho.
  rewrite <- Ea. unfold disjoint in D.
  destruct (Nat.leb_spec (s_off p) (s_off s + i)); [|reflexivity].
  destruct (Nat.ltb_spec (s_off s + i) (s_off p + s_len o)); [|reflexivity]. lia.
Qed.

Lemma group_set_spec h p o : valid h p -> valid h o ->
  (group_set h p o = None <-> s_len p <> s_len o) /\
  forall h', group_set h p o = Some h' ->
    read h' p = read h o /\
    (disjoint p o -> read h' o = read h o) /\
    (forall s, disjoint p s -> read h' s = read h s).
Proof.
  intros Hp Ho. unfold group_set. destruct (Nat.eqb_spec (s_len p) (s_len o)) as [E|E].
  - split; [split; [discriminate|contradiction]|]. intros h' H. injection H as <-.
    split; [apply copy_read_dst; assumption|]. split; intros; apply copy_frame; assumption.
  - split; [split; auto|]. discriminate.
Qed.

Lemma write_frame h s i v t : disjoint s t -> read (write h s i v) t = read h t.
Proof.
  intros D. unfold write. destruct (Nat.ltb_spec i (s_len s)); [|reflexivity].
  apply nth_error_ext. intros j. rewrite !read_nth, arr_set_nth.
  destruct (Nat.ltb_spec j (s_len t)); [|reflexivity].
  destruct (Nat.eqb_spec (s_arr s) (s_arr t)) as [Ea|]; [|reflexivity]. cbn [andb].
  destruct (Nat.ltb_spec (s_arr s) (length h)); [|reflexivity].
  rewrite set_nth_error, Ea. destruct (Nat.eqb_spec (s_off s + i) (s_off t + j)); [|reflexivity].
  unfold disjoint in D. lia.
Qed.

Lemma writes_frame h ws t : Forall (fun w => disjoint (fst (fst w)) t) ws -> read (writes h ws) t = read h t.
Proof.
  unfold writes. revert h; induction ws as [|w ws IH]; intros h H; [reflexivity|]. inversion H; subst.
  cbn [fold_left]. rewrite IH by assumption. apply write_frame; assumption.
Qed.

Lemma write_read h s i v : valid h s -> i < s_len s -> nth_error (read (write h s i v) s) i = Some v.
Proof.
  intros [H1 H2] Hi. unfold write. destruct (Nat.ltb_spec i (s_len s)); [|lia].
  rewrite read_nth, arr_set_nth, Nat.eqb_refl. destruct (Nat.ltb_spec (s_arr s) (length h)); [|lia]. cbn [andb].
  destruct (Nat.ltb_spec i (s_len s)); [|lia].
  rewrite set_nth_error, Nat.eqb_refl. destruct (Nat.ltb_spec (s_off s + i) (length (arr h (s_arr s)))); [reflexivity|lia].
Qed.

Lemma arr_app_old h l a : a < length h -> arr (h ++ [l]) a = arr h a.
Proof. intros. unfold arr. apply app_nth1. assumption. Qed.

Lemma group_copy_spec zero h p : valid h p ->
  let h' := fst (group_copy zero h p) in let q := snd (group_copy zero h p) in
  valid h' q /\ read h' q = read h p /\
  (forall s, valid h s -> valid h' s /\ read h' s = read h s /\ disjoint s q) /\
  (* later writes through anything that existed before never show in the copy *)
  (forall ws, Forall (fun w => valid h (fst (fst w))) ws -> read (writes h' ws) q = read h' q) /\
  (* and writes through the copy never show in anything that existed before *)
  (forall ws s, Forall (fun w => fst (fst w) = q) ws -> valid h s -> read (writes h' ws) s = read h s).
Proof.
  intros Hp. cbv zeta. unfold group_copy, go_make. cbn [fst snd].
  set (h1 := h ++ [repeat zero (s_len p)]). set (q := Sl (length h) 0 (s_len p)).
  assert (V1 : forall s, valid h s -> valid h1 s /\ read h1 s = read h s /\ disjoint q s).
  { intros s [A1 A2]. unfold h1, valid, read, disjoint, q. rewrite app_length, arr_app_old by exact A1. cbn.
    repeat split; auto; lia. }
  assert (Vq : valid h1 q).
  { unfold valid, h1, q. cbn. rewrite app_length. unfold arr. rewrite app_nth2, Nat.sub_diag by lia. cbn.
    rewrite repeat_length. lia. }
  destruct (V1 p Hp) as (Vp & Rp & Dp).
  assert (L : forall s, length (arr (go_copy h1 q p) s) = length (arr h1 s)).
  { intros s. unfold go_copy. cbv zeta. rewrite (copy_vs h1 q p Vp eq_refl), arr_set_nth.
    destruct (Nat.eqb_spec (s_arr q) s) as [<-|]; [|reflexivity]. cbn [andb].
    destruct (s_arr q <? length h1); [|reflexivity]. apply splice_length.
    rewrite read_length by exact Vp. destruct Vq as [_ V]. exact V. }
  assert (LL : length (go_copy h1 q p) = length h1) by (unfold go_copy; apply set_nth_length).
  assert (W : forall s, valid h1 s -> valid (go_copy h1 q p) s).
  { intros s [B1 B2]. split; [rewrite LL; exact B1|rewrite L; exact B2]. }
  split; [apply W, Vq|]. split; [rewrite copy_read_dst by auto; exact Rp|]. split; [|split].
  - intros s Hs. destruct (V1 s Hs) as (Vs & Rs & Ds). split; [apply W, Vs|].
    split; [rewrite copy_frame by auto; exact Rs|]. unfold disjoint in *. lia.
  - intros ws Hw. apply writes_frame. eapply Forall_impl; [|exact Hw]. cbn. intros w Hv.
    destruct (V1 _ Hv) as (_ & _ & D). unfold disjoint in *. lia.
  - intros ws s Hw Hs. destruct (V1 s Hs) as (Vs & Rs & Ds). rewrite writes_frame.
    + rewrite copy_frame by auto. exact Rs.
    + eapply Forall_impl; [|exact Hw]. cbn. intros w ->. exact Ds.
Qed.
End Heap.
