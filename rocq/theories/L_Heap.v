(** Operations on slices of objects that own their arrays act on the values. *)
From Coq Require Import List Arith Bool Lia.
From Verif Require Import M_Slice M_Heap S_Heap L_PMap.
Import ListNotations.
Local Open Scope nat_scope.

Section Own.
Context {A : Type} (zero : A).
Notation world := (world A).

Definition own (w : world) : Prop :=
  (forall o k s, slot w o k = Some s -> h_arr s < length (w_heap w) /\ h_len s <= length (array w s)) /\
  (forall o k s o' k' s', slot w o k = Some s -> slot w o' k' = Some s' -> h_arr s = h_arr s' -> o = o' /\ k = k').

Definition at2 {B} (vs : list (list B)) (o k : nat) : option B := match nth_error vs o with None => None | Some v => nth_error v k end.
Lemma ext {B} (l m : list B) : (forall i, nth_error l i = nth_error m i) -> l = m.
Proof. revert m. induction l as [|a l IH]; intros [|b m] H; try reflexivity; try (specialize (H 0); discriminate). f_equal. - specialize (H 0). cbn in H. congruence. - apply IH. intros i. apply (H (S i)). Qed.
Lemma ext2 {B} (vs us : list (list B)) : map (@length B) vs = map (@length B) us -> (forall o k, at2 vs o k = at2 us o k) -> vs = us.
Proof.
  intros Hl H. apply ext. intros o. assert (L := f_equal (fun l => nth_error l o) Hl). cbn in L. rewrite !nth_error_map in L.
  assert (Ho := H o). unfold at2 in Ho. destruct (nth_error vs o) as [v|], (nth_error us o) as [u|]; try discriminate; [|reflexivity].
  f_equal. apply ext. exact Ho.
Qed.
Definition read (w : world) (s : header) : list A := firstn (h_len s) (array w s).
Lemma at2_show (w : world) o k : at2 (show w) o k = option_map (read w) (slot w o k).
Proof. unfold at2, show, slot. rewrite nth_error_map. destruct (nth_error (w_objs w) o); [|reflexivity]. cbn. rewrite nth_error_map. reflexivity. Qed.
Lemma shape_show (w : world) : map (@length _) (show w) = map (@length _) (w_objs w).
Proof. unfold show. rewrite map_map. apply map_ext. intros. apply map_length. Qed.
Lemma at2_set {B} (vs : list (list B)) o k l v o' k' : nth_error vs o = Some v -> at2 (set_nth o (set_nth k l v) vs) o' k' = if (o =? o') && (k =? k') then (if k <? length v then Some l else None) else at2 vs o' k'.
Proof.
  intros E. unfold at2. rewrite nth_error_set_nth. destruct (Nat.eqb_spec o o') as [<-|No]; cbn [andb]; [|reflexivity].
  assert (Lo : o < length vs) by (apply nth_error_Some; congruence). rewrite (proj2 (Nat.ltb_lt _ _) Lo), E, nth_error_set_nth.
  destruct (Nat.eqb_spec k k') as [<-|]; reflexivity.
Qed.
Lemma shape_set {B} (vs : list (list B)) o k l v : nth_error vs o = Some v -> map (@length B) (set_nth o (set_nth k l v) vs) = map (@length B) vs.
Proof.
  intros E. apply ext. intros i. rewrite !nth_error_map, nth_error_set_nth. destruct (Nat.eqb_spec o i) as [<-|]; [|reflexivity].
  rewrite E. destruct (Nat.ltb_spec o (length vs)). - cbn. rewrite set_nth_length. reflexivity. - apply nth_error_None in H. congruence.
Qed.

(** [w'] differs from [w] in one slice, which shows [l]. *)
Definition upd (w : world) (o k : nat) (l : list A) (w' : world) : Prop :=
  exists s s', slot w o k = Some s /\ slot w' o k = Some s' /\
    (forall o' k', (o', k') <> (o, k) -> slot w' o' k' = slot w o' k') /\
    map (@length _) (w_objs w') = map (@length _) (w_objs w) /\
    length (w_heap w) <= length (w_heap w') /\
    (forall a, a < length (w_heap w) -> a <> h_arr s -> nth a (w_heap w') [] = nth a (w_heap w) []) /\
    (h_arr s' = h_arr s \/ length (w_heap w) <= h_arr s') /\
    h_arr s' < length (w_heap w') /\ h_len s' <= length (array w' s') /\ read w' s' = l.

Lemma upd_own w o k l w' : own w -> upd w o k l w' -> own w'.
Proof.
  intros [V D] (s & s' & E & E' & Ho & Sh & Lh & Ha & Hn & Hb & Hl & Hr).
  assert (Other : forall o1 k1 s1, (o1, k1) <> (o, k) -> slot w o1 k1 = Some s1 -> h_arr s1 <> h_arr s /\ h_arr s1 < length (w_heap w) /\ array w' s1 = array w s1).
  { intros o1 k1 s1 N E1. destruct (V _ _ _ E1) as [V1 V2]. assert (h_arr s1 <> h_arr s) by (intros C; destruct (D _ _ _ _ _ _ E1 E C); subst; congruence). repeat split; auto. apply Ha; auto. }
  assert (Dec : forall o1 k1 : nat, {(o1, k1) = (o, k)} + {(o1, k1) <> (o, k)}) by (intros; repeat decide equality).
  split.
  - intros o1 k1 s1 E1. destruct (Dec o1 k1) as [[= -> ->]|N].
    + rewrite E' in E1. injection E1 as <-. auto.
    + rewrite (Ho _ _ N) in E1. destruct (Other _ _ _ N E1) as (_ & B & C). rewrite C. destruct (V _ _ _ E1). split; [lia|assumption].
  - intros o1 k1 s1 o2 k2 s2 E1 E2 C. destruct (Dec o1 k1) as [[= -> ->]|N1], (Dec o2 k2) as [[= -> ->]|N2].
    + auto.
    + exfalso. rewrite E' in E1. injection E1 as <-. rewrite (Ho _ _ N2) in E2. destruct (Other _ _ _ N2 E2) as (B1 & B2 & _). destruct Hn; [congruence|lia].
    + exfalso. rewrite E' in E2. injection E2 as <-. rewrite (Ho _ _ N1) in E1. destruct (Other _ _ _ N1 E1) as (B1 & B2 & _). destruct Hn; [congruence|lia].
    + rewrite (Ho _ _ N1) in E1. rewrite (Ho _ _ N2) in E2. exact (D _ _ _ _ _ _ E1 E2 C).
Qed.
Lemma upd_show w o k l w' : own w -> upd w o k l w' -> exists v, nth_error (show w) o = Some v /\ k < length v /\ show w' = set_nth o (set_nth k l v) (show w).
Proof.
  intros [V D] (s & s' & E & E' & Ho & Sh & Lh & Ha & Hn & Hb & Hl & Hr).
  assert (Es : at2 (show w) o k = Some (read w s)) by (rewrite at2_show, E; reflexivity).
  unfold at2 in Es. destruct (nth_error (show w) o) as [v|] eqn:Ev; [|discriminate]. exists v.
  assert (Lk : k < length v) by (apply nth_error_Some; congruence). repeat split; [assumption|].
  apply ext2.
  - rewrite (shape_set _ _ _ _ _ Ev), !shape_show. exact Sh.
  - intros o1 k1. rewrite (at2_set _ _ _ _ _ _ _ Ev), (proj2 (Nat.ltb_lt _ _) Lk), at2_show.
    destruct (Nat.eqb_spec o o1) as [<-|No]; cbn [andb]; [destruct (Nat.eqb_spec k k1) as [<-|Nk]|].
    + rewrite E'. cbn. congruence.
    + rewrite Ho, at2_show by congruence. destruct (slot w o k1) as [t|] eqn:Et; [|reflexivity]. cbn. f_equal. unfold read. f_equal. unfold array. apply Ha; [apply (V _ _ _ Et)|].
      intros C. destruct (D _ _ _ _ _ _ Et E C). congruence.
    + rewrite Ho, at2_show by congruence. destruct (slot w o1 k1) as [t|] eqn:Et; [|reflexivity]. cbn. f_equal. unfold read. f_equal. unfold array. apply Ha; [apply (V _ _ _ Et)|].
      intros C. destruct (D _ _ _ _ _ _ Et E C). congruence.
Qed.
Lemma slot_set (w : world) o k s o' k' : slot w o k <> None -> slot (set_slot w o k s) o' k' = if (o =? o') && (k =? k') then Some s else slot w o' k'.
Proof.
  intros N. unfold slot in N. destruct (nth_error (w_objs w) o) as [f|] eqn:Ef; [|congruence].
  unfold slot at 1, set_slot. cbn [w_objs]. rewrite (nth_error_nth _ _ _ Ef). fold (at2 (set_nth o (set_nth k s f) (w_objs w)) o' k'). rewrite (at2_set _ _ _ _ _ _ _ Ef).
  rewrite (proj2 (Nat.ltb_lt _ _) (proj1 (nth_error_Some _ _) N)). reflexivity.
Qed.
Lemma shape_slot (w : world) o k s : slot w o k <> None -> map (@length _) (w_objs (set_slot w o k s)) = map (@length _) (w_objs w).
Proof.
  intros N. unfold slot in N. destruct (nth_error (w_objs w) o) as [f|] eqn:Ef; [|congruence].
  unfold set_slot. cbn [w_objs]. rewrite (nth_error_nth _ _ _ Ef). apply (shape_set _ _ _ _ _ Ef).
Qed.
(** Changes of the heap alone. *)
Lemma upd_intro (w : world) o k s s' heap' :
  slot w o k = Some s -> length (w_heap w) <= length heap' ->
  (forall a, a < length (w_heap w) -> a <> h_arr s -> nth a heap' [] = nth a (w_heap w) []) ->
  (h_arr s' = h_arr s \/ length (w_heap w) <= h_arr s') -> h_arr s' < length heap' -> h_len s' <= length (nth (h_arr s') heap' []) ->
  upd w o k (firstn (h_len s') (nth (h_arr s') heap' [])) (set_slot (World heap' (w_objs w)) o k s').
Proof.
  intros E Lh Ha Hn Hb Hl. assert (N : slot (World heap' (w_objs w)) o k <> None) by (unfold slot in *; cbn; congruence).
  exists s, s'. split; [assumption|]. split; [rewrite slot_set, !Nat.eqb_refl by assumption; reflexivity|].
  split. { intros o' k' D. rewrite slot_set by assumption. destruct (Nat.eqb_spec o o') as [<-|]; [destruct (Nat.eqb_spec k k') as [<-|]|]; try reflexivity. congruence. }
  split; [apply (shape_slot _ _ _ _ N)|]. repeat split; auto.
Qed.
Lemma same_slot (w : world) o k s : slot w o k = Some s -> set_slot w o k s = w.
Proof.
  intros E. destruct w as [h objs]. unfold set_slot. cbn. f_equal. unfold slot in E. cbn in E. destruct (nth_error objs o) as [f|] eqn:Ef; [|discriminate].
  rewrite (nth_error_nth _ _ _ Ef). apply ext2. - apply (shape_set _ _ _ _ _ Ef).
  - intros o' k'. rewrite (at2_set _ _ _ _ _ _ _ Ef). destruct (Nat.eqb_spec o o') as [<-|]; [destruct (Nat.eqb_spec k k') as [<-|]|]; try reflexivity. cbn [andb].
    rewrite (proj2 (Nat.ltb_lt _ _) (proj1 (nth_error_Some f k) ltac:(congruence))). unfold at2. rewrite Ef. congruence.
Qed.

Lemma firstn_set_in {B} i (v : B) l n : i < n -> firstn n (set_nth i v l) = set_nth i v (firstn n l).
Proof. revert l n. induction i as [|i IH]; intros [|a l] [|n] H; try reflexivity; try lia. cbn. f_equal. apply IH. lia. Qed.
Lemma firstn_set_end {B} n (v : B) l : n < length l -> firstn (S n) (set_nth n v l) = firstn n l ++ [v].
Proof. revert l. induction n as [|n IH]; intros [|a l] H; cbn in H; try lia; [reflexivity|]. cbn [set_nth firstn app]. f_equal. apply (IH l). lia. Qed.

Lemma write_upd w o k s i v : own w -> slot w o k = Some s -> i < h_len s -> upd w o k (set_nth i v (read w s)) (set_array w s (set_nth i v (array w s))).
Proof.
  intros [V _] E Hi. destruct (V _ _ _ E) as [V1 V2].
  assert (Ea : nth (h_arr s) (set_nth (h_arr s) (set_nth i v (array w s)) (w_heap w)) [] = set_nth i v (array w s)).
  { apply nth_error_nth. rewrite nth_error_set_nth, Nat.eqb_refl, (proj2 (Nat.ltb_lt _ _) V1). reflexivity. }
  unfold set_array. rewrite <- (same_slot (World _ _) o k s) by (unfold slot in *; exact E).
  unfold read. rewrite <- firstn_set_in by exact Hi. rewrite <- Ea at 1. apply (upd_intro w o k s s); auto; rewrite ?set_nth_length; auto.
  - intros a _ Na. assert (Q := nth_error_set_nth (h_arr s) a (set_nth i v (array w s)) (w_heap w)). destruct (Nat.eqb_spec (h_arr s) a) as [C|_]; [congruence|].
    rewrite <- !nth_default_eq. unfold nth_default. rewrite Q. reflexivity.
  - rewrite Ea, set_nth_length. exact V2.
Qed.
Lemma cut_upd w o k s n : own w -> slot w o k = Some s -> n <= h_len s -> upd w o k (firstn n (read w s)) (set_slot w o k (Hd (h_arr s) n)).
Proof.
  intros [V _] E Hn. destruct (V _ _ _ E) as [V1 V2]. destruct w as [hp objs]. cbn in *.
  replace (firstn n (read _ s)) with (firstn n (nth (h_arr s) hp [])) by (unfold read; rewrite firstn_firstn, Nat.min_l by lia; reflexivity).
  apply (upd_intro (World hp objs) o k s (Hd (h_arr s) n) hp); auto. cbn. unfold array in V2. cbn in V2. lia.
Qed.
Lemma nth_app_old (hp : list (list A)) x a : a < length hp -> nth a (hp ++ [x]) [] = nth a hp [].
Proof. intros. apply app_nth1. assumption. Qed.
Lemma nth_app_new (hp : list (list A)) x : nth (length hp) (hp ++ [x]) [] = x.
Proof. rewrite app_nth2, Nat.sub_diag by lia. reflexivity. Qed.
Lemma append_upd w o k s v e : own w -> slot w o k = Some s -> exists w', h_append zero w o k v e = Some w' /\ upd w o k (read w s ++ [v]) w'.
Proof.
  intros [V D] E. destruct (V _ _ _ E) as [V1 V2]. unfold h_append. rewrite E. destruct (Nat.ltb_spec (h_len s) (length (array w s))) as [L|L].
  - eexists. split; [reflexivity|].
    assert (Ea : nth (h_arr s) (set_nth (h_arr s) (set_nth (h_len s) v (array w s)) (w_heap w)) [] = set_nth (h_len s) v (array w s)).
    { apply nth_error_nth. rewrite nth_error_set_nth, Nat.eqb_refl, (proj2 (Nat.ltb_lt _ _) V1). reflexivity. }
    unfold read. rewrite <- firstn_set_end by exact L. rewrite <- Ea at 1. unfold set_array. apply (upd_intro w o k s (Hd (h_arr s) (S (h_len s)))); cbn [h_arr h_len]; auto; rewrite ?set_nth_length; auto.
    + intros a _ Na. assert (Q := nth_error_set_nth (h_arr s) a (set_nth (h_len s) v (array w s)) (w_heap w)). destruct (Nat.eqb_spec (h_arr s) a) as [C|_]; [congruence|].
      rewrite <- !nth_default_eq. unfold nth_default. rewrite Q. reflexivity.
    + rewrite Ea, set_nth_length. lia.
  - eexists. split; [reflexivity|].
    set (nw := firstn (h_len s) (array w s) ++ [v] ++ repeat zero e).
    assert (Ln : length (firstn (h_len s) (array w s)) = h_len s) by (rewrite firstn_length; lia).
    replace (read w s ++ [v]) with (firstn (S (h_len s)) (nth (length (w_heap w)) (w_heap w ++ [nw]) [])).
    + apply (upd_intro w o k s (Hd (length (w_heap w)) (S (h_len s)))); cbn [h_arr h_len]; auto; rewrite ?app_length; cbn; auto; try lia.
      * intros a Hb _. apply nth_app_old. exact Hb.
      * rewrite nth_app_new. unfold nw. rewrite !app_length, Ln. cbn. lia.
    + rewrite nth_app_new. unfold nw, read. rewrite app_assoc, firstn_app, !app_length, Ln. cbn [length]. replace (S (h_len s) - (h_len s + 1)) with 0 by lia. rewrite firstn_O, app_nil_r.
      apply firstn_all2. rewrite app_length, Ln. cbn. lia.
Qed.

Lemma upd_trans w o k l w1 l' w' : own w -> upd w o k l w1 -> upd w1 o k l' w' -> upd w o k l' w'.
Proof.
  intros [V D] (s & s1 & E & E1 & Ho & Sh & Lh & Ha & Hn & Hb & Hl & Hr) (t & s' & E1' & E' & Ho' & Sh' & Lh' & Ha' & Hn' & Hb' & Hl' & Hr').
  assert (t = s1) by congruence. subst t. exists s, s'. split; [assumption|]. split; [assumption|]. split. { intros. rewrite Ho', Ho by assumption. reflexivity. }
  split; [congruence|]. split; [lia|]. split. { intros a B C. rewrite Ha'; [apply Ha; assumption|lia|]. destruct Hn as [Hn|Hn]; [congruence|]. intros ->. lia. }
  split. { destruct Hn' as [Hn'|Hn']; [rewrite Hn'; exact Hn|right; lia]. } auto.
Qed.
Lemma upd_read w o k l w' o' k' t : own w -> upd w o k l w' -> (o', k') <> (o, k) -> slot w o' k' = Some t -> slot w' o' k' = Some t /\ array w' t = array w t.
Proof.
  intros [V D] (s & s' & E & E' & Ho & Sh & Lh & Ha & Hn & Hb & Hl & Hr) N Et. split; [rewrite Ho by exact N; exact Et|].
  apply Ha; [apply (V _ _ _ Et)|]. intros C. destruct (D _ _ _ _ _ _ Et E C). subst. congruence.
Qed.
Lemma copy_upd w d o k s t : own w -> d <> o -> slot w d k = Some s -> slot w o k = Some t -> h_len s = h_len t -> exists w', h_copy w d o k = Some w' /\ upd w d k (read w t) w'.
Proof.
  intros [V D] N Es Et L. destruct (V _ _ _ Es) as [V1 V2]. destruct (V _ _ _ Et) as [V3 V4]. unfold h_copy. rewrite Es, Et. eexists. split; [reflexivity|].
  rewrite L, Nat.min_id. set (na := splice 0 (firstn (h_len t) (array w t)) (array w s)).
  assert (Lf : length (firstn (h_len t) (array w t)) = h_len t) by (rewrite firstn_length; lia).
  assert (Ena : na = firstn (h_len t) (array w t) ++ skipn (h_len t) (array w s)) by (unfold na, splice; rewrite firstn_O, Lf; reflexivity).
  assert (Ea : nth (h_arr s) (set_nth (h_arr s) na (w_heap w)) [] = na) by (apply nth_error_nth; rewrite nth_error_set_nth, Nat.eqb_refl, (proj2 (Nat.ltb_lt _ _) V1); reflexivity).
  unfold set_array. rewrite <- (same_slot (World _ _) d k s) by (unfold slot in *; exact Es).
  replace (read w t) with (firstn (h_len s) (nth (h_arr s) (set_nth (h_arr s) na (w_heap w)) [])).
  - apply (upd_intro w d k s s); auto; rewrite ?set_nth_length; auto.
    + intros a _ Na. assert (Q := nth_error_set_nth (h_arr s) a na (w_heap w)). destruct (Nat.eqb_spec (h_arr s) a) as [C|_]; [congruence|].
      rewrite <- !nth_default_eq. unfold nth_default. rewrite Q. reflexivity.
    + rewrite Ea, Ena, app_length, Lf. lia.
  - rewrite Ea, Ena, L. unfold read. rewrite firstn_app, Lf, Nat.sub_diag, firstn_O, app_nil_r. apply firstn_all2. lia.
Qed.
Lemma set_one_upd w d o k s t : own w -> d <> o -> slot w d k = Some s -> slot w o k = Some t -> exists w', set_one zero d o w k = Some w' /\ upd w d k (read w t) w'.
Proof.
  intros O N Es Et. pose proof O as [V D]. destruct (V _ _ _ Es) as [V1 V2]. unfold set_one. rewrite Es.
  set (w1 := set_slot w d k (Hd (h_arr s) (length (array w s)))).
  assert (U1 : upd w d k (array w s) w1).
  { destruct w as [hp objs]. replace (array _ s) with (firstn (length (nth (h_arr s) hp [])) (nth (h_arr s) hp [])) by (rewrite firstn_all; reflexivity).
    unfold w1, array. cbn [w_heap]. rewrite firstn_all at 1. rewrite <- (firstn_all (nth (h_arr s) hp [])) at 1. apply (upd_intro (World hp objs) d k s (Hd (h_arr s) (length (nth (h_arr s) hp []))) hp); cbn [h_arr h_len]; auto. }
  assert (O1 := upd_own _ _ _ _ _ O U1).
  assert (Nk : (o, k) <> (d, k)) by congruence.
  destruct (upd_read _ _ _ _ _ _ _ _ O U1 Nk Et) as [Et1 At1]. rewrite Et1.
  assert (Es1 : slot w1 d k = Some (Hd (h_arr s) (length (array w s)))) by (unfold w1; rewrite slot_set, !Nat.eqb_refl by congruence; reflexivity).
  assert (Final : forall w2 l2 s2, upd w1 d k l2 w2 \/ w2 = w1 -> slot w2 d k = Some s2 -> h_len s2 = h_len t -> exists w', h_copy w2 d o k = Some w' /\ upd w d k (read w t) w').
  { intros w2 l2 s2 U Es2 L2.
    assert (O2 : own w2 /\ slot w2 o k = Some t /\ array w2 t = array w1 t /\ exists l, upd w d k l w2).
    { destruct U as [U| ->]; [|split; [|split; [|split]]; eauto]. destruct (upd_read _ _ _ _ _ _ _ _ O1 U Nk Et1). split; [|split; [|split]]; auto; [exact (upd_own _ _ _ _ _ O1 U)|]. exists l2. exact (upd_trans _ _ _ _ _ _ _ O U1 U). }
    destruct O2 as (O2 & Et2 & At2 & l & Ul). destruct (copy_upd _ _ _ _ _ _ O2 N Es2 Et2 L2) as (w' & Ec & Uc). exists w'. split; [exact Ec|].
    replace (read w t) with (read w2 t) by (unfold read; rewrite At2, At1; reflexivity). exact (upd_trans _ _ _ _ _ _ _ O Ul Uc). }
  destruct (Nat.ltb_spec (h_len t) (length (array w s))) as [L|L]; [|destruct (Nat.ltb_spec (length (array w s)) (h_len t)) as [L'|L']].
  - apply (Final _ _ (Hd (h_arr s) (h_len t)) (or_introl (cut_upd w1 d k _ (h_len t) O1 Es1 ltac:(cbn; lia)))); [|reflexivity]. rewrite slot_set, !Nat.eqb_refl by congruence. reflexivity.
  - unfold h_make. rewrite Es1. eapply (Final _ _ (Hd (length (w_heap w1)) (h_len t))); [left| |reflexivity].
    + apply (upd_intro w1 d k _ (Hd (length (w_heap w1)) (h_len t)) (w_heap w1 ++ [repeat zero (h_len t)]) Es1); cbn [h_arr h_len]; rewrite ?app_length; cbn [length]; auto; try lia.
      * intros a Ba _. apply nth_app_old. exact Ba.
      * rewrite nth_app_new, repeat_length. lia.
    + rewrite slot_set, !Nat.eqb_refl; [reflexivity|]. change (slot w1 d k <> None). congruence.
  - apply (Final w1 [] _ (or_intror eq_refl) Es1). cbn. lia.
Qed.
Lemma set_one_none w d o k : slot w d k <> None -> d <> o -> slot w o k = None -> set_one zero d o w k = None.
Proof.
  intros Es N Et. unfold set_one. destruct (slot w d k) as [s|] eqn:E; [|congruence]. rewrite slot_set by congruence. destruct (Nat.eqb_spec d o); [contradiction|]. cbn. rewrite Et. reflexivity.
Qed.

(** The loop over the slices. *)
Definition set_loop d o ks (ow : option world) := fold_left (fun ow k => match ow with None => None | Some w => set_one zero d o w k end) ks ow.
Lemma set_loop_none d o ks : set_loop d o ks None = None.
Proof. induction ks; [reflexivity|exact IHks]. Qed.
Lemma show_at w o v : nth_error (show w) o = Some v -> forall k, nth_error v k = option_map (read w) (slot w o k).
Proof. intros E k. rewrite <- at2_show. unfold at2. rewrite E. reflexivity. Qed.
Lemma set_nth_nth {B} i (a b : B) l : set_nth i a (set_nth i b l) = set_nth i a l.
Proof. revert i. induction l as [|x l IH]; intros [|i]; try reflexivity. cbn. f_equal. apply IH. Qed.
Lemma set_loop_show d o : d <> o -> forall n j w v u, own w -> nth_error (show w) d = Some v -> nth_error (show w) o = Some u -> j + n = length v -> j <= length u ->
  firstn j v = firstn j u ->
  match set_loop d o (seq j n) (Some w) with
  | Some w' => length v <= length u /\ own w' /\ show w' = set_nth d (firstn (length v) u) (show w)
  | None => length u < length v
  end.
Proof.
  intros N. induction n as [|n IH]; intros j w v u O Ev Eu Lv Lu F.
  - cbn. assert (j = length v) by lia. subst j. rewrite firstn_all in F. split; [exact Lu|]. split; [exact O|]. rewrite <- F.
    symmetry. apply ext. intros i. rewrite nth_error_set_nth. destruct (Nat.eqb_spec d i) as [<-|]; [|reflexivity]. rewrite (proj2 (Nat.ltb_lt _ _) (proj1 (nth_error_Some (show w) d) ltac:(congruence))). congruence.
  - cbn [seq set_loop fold_left]. fold (set_loop d o (seq (S j) n) (set_one zero d o w j)).
    assert (Sd : slot w d j <> None). { assert (Q := show_at _ _ _ Ev j). destruct (slot w d j); [congruence|]. cbn in Q. apply nth_error_None in Q. lia. }
    destruct (slot w d j) as [s|] eqn:Es; [|congruence]. destruct (slot w o j) as [t|] eqn:Et.
    + destruct (set_one_upd _ _ _ _ _ _ O N Es Et) as (w' & E1 & U). rewrite E1. assert (O' := upd_own _ _ _ _ _ O U).
      destruct (upd_show _ _ _ _ _ O U) as (v0 & Ev0 & Lj & Sh). assert (v0 = v) by congruence. subst v0.
      assert (Ld : d < length (show w)) by (apply nth_error_Some; congruence).
      assert (Ju : nth_error u j = Some (read w t)) by (rewrite (show_at _ _ _ Eu j), Et; reflexivity).
      assert (Lju : j < length u) by (apply nth_error_Some; congruence).
      assert (Ev' : nth_error (show w') d = Some (set_nth j (read w t) v)) by (rewrite Sh, nth_error_set_nth, Nat.eqb_refl, (proj2 (Nat.ltb_lt _ _) Ld); reflexivity).
      assert (Eu' : nth_error (show w') o = Some u) by (rewrite Sh, nth_error_set_nth; destruct (Nat.eqb_spec d o); [contradiction|exact Eu]).
      specialize (IH (S j) w' _ _ O' Ev' Eu'). rewrite set_nth_length in IH. specialize (IH ltac:(lia) ltac:(lia)).
      assert (F' : firstn (S j) (set_nth j (read w t) v) = firstn (S j) u).
      { rewrite firstn_set_end by exact Lj. rewrite F. clear - Ju. revert j Ju. induction u as [|a u IH]; intros [|j] J; cbn in J; try discriminate; cbn [firstn app]; [congruence|]. f_equal. apply IH. exact J. }
      specialize (IH F'). destruct (set_loop d o (seq (S j) n) (Some w')) as [w2|]; [|exact IH]. destruct IH as (I1 & I2 & I3). split; [exact I1|]. split; [exact I2|]. rewrite I3, Sh. apply set_nth_nth.
    + rewrite (set_one_none w d o j ltac:(congruence) N Et), set_loop_none. assert (Q := show_at _ _ _ Eu j). rewrite Et in Q. cbn in Q. apply nth_error_None in Q. lia.
Qed.
Lemma show_len w o f v : nth_error (w_objs w) o = Some f -> nth_error (@show A w) o = Some v -> length f = length v.
Proof. intros E1 E2. unfold show in E2. rewrite nth_error_map, E1 in E2. injection E2 as <-. rewrite map_length. reflexivity. Qed.
Lemma show_none w o : nth_error (w_objs w) o = None -> nth_error (@show A w) o = None.
Proof. intros E. unfold show. rewrite nth_error_map, E. reflexivity. Qed.
Lemma show_some w o f : nth_error (w_objs w) o = Some f -> exists v, nth_error (@show A w) o = Some v.
Proof. intros E. unfold show. rewrite nth_error_map, E. eexists. reflexivity. Qed.
Lemma h_set_refines w d o : own w -> d <> o -> option_map show (h_set zero w d o) = v_exec (show w) (HSet d o) /\ (forall w', h_set zero w d o = Some w' -> own w').
Proof.
  intros O N. unfold h_set, v_exec, value. destruct (nth_error (w_objs w) d) as [f|] eqn:Ef; [destruct (nth_error (w_objs w) o) as [g|] eqn:Eg|].
  - destruct (show_some _ _ _ Ef) as [v Ev]. destruct (show_some _ _ _ Eg) as [u Eu]. rewrite Ev, Eu, (show_len _ _ _ _ Ef Ev).
    assert (Q := set_loop_show d o N (length v) 0 w v u O Ev Eu eq_refl ltac:(lia) eq_refl). unfold set_loop in Q.
    destruct (fold_left _ _ _) as [w'|].
    + destruct Q as (L & O' & Sh). rewrite (proj2 (Nat.leb_le _ _) L). cbn. split; [congruence|intros ? [= <-]; exact O'].
    + rewrite (proj2 (Nat.leb_gt _ _) Q). split; [reflexivity|discriminate].
  - rewrite (show_none _ _ Eg). split; [destruct (nth_error (show w) d); reflexivity|discriminate].
  - rewrite (show_none _ _ Ef). split; [reflexivity|discriminate].
Qed.

Lemma change_upd w o k s (g : list A -> option (list A)) : own w -> slot w o k = Some s ->
  change (show w) o k g = match g (read w s) with None => None | Some l => Some (set_nth o (set_nth k l (nth o (show w) [])) (show w)) end.
Proof.
  intros O E. assert (Q := at2_show w o k). rewrite E in Q. unfold at2 in Q. unfold change, value. destruct (nth_error (show w) o) as [v|] eqn:Ev; [|discriminate]. rewrite Q.
  cbn [option_map]. rewrite (nth_error_nth _ _ _ Ev). destruct (g (read w s)); cbn; reflexivity.
Qed.
Lemma change_none w o k (g : list A -> option (list A)) : slot w o k = None -> change (show w) o k g = None.
Proof. intros E. assert (Q := at2_show w o k). rewrite E in Q. unfold at2 in Q. unfold change, value. destruct (nth_error (show w) o) as [v|]; [rewrite Q|]; reflexivity. Qed.
Lemma upd_result w o k l w' : own w -> upd w o k l w' -> show w' = set_nth o (set_nth k l (nth o (show w) [])) (show w) /\ own w'.
Proof. intros O U. split; [|exact (upd_own _ _ _ _ _ O U)]. destruct (upd_show _ _ _ _ _ O U) as (v & Ev & _ & Sh). rewrite (nth_error_nth _ _ _ Ev). exact Sh. Qed.
Lemma read_len w o k s : own w -> slot w o k = Some s -> length (read w s) = h_len s.
Proof. intros [V _] E. destruct (V _ _ _ E). unfold read. rewrite firstn_length. lia. Qed.

Lemma new_slot w m o k : slot (h_new w m) o k = if o =? length (w_objs w) then (if k <? m then Some (Hd (length (@w_heap A w) + k) 0) else None) else slot w o k.
Proof.
  unfold slot, h_new. cbn [w_objs]. destruct (Nat.eqb_spec o (length (w_objs w))) as [->|No].
  - rewrite nth_error_app2, Nat.sub_diag by lia. cbn [nth_error]. rewrite nth_error_map. destruct (Nat.ltb_spec k m) as [L|L].
    + rewrite (nth_error_nth' (seq 0 m) 0) by (rewrite seq_length; exact L). rewrite seq_nth by exact L. cbn. reflexivity.
    + rewrite (proj2 (nth_error_None _ _)); [reflexivity|]. rewrite seq_length. exact L.
  - destruct (Nat.lt_ge_cases o (length (w_objs w))) as [L|L]; [rewrite nth_error_app1 by exact L; reflexivity|].
    rewrite (proj2 (nth_error_None (w_objs w) o) L), (proj2 (nth_error_None (_ ++ _) o)); [reflexivity|]. rewrite app_length. cbn. lia.
Qed.
Lemma new_refines w m : own w -> own (h_new w m) /\ show (h_new w m) = show w ++ [repeat [] m].
Proof.
  intros [V D]. assert (LH : length (w_heap (h_new w m)) = length (w_heap w) + m) by (unfold h_new; cbn [w_heap]; rewrite app_length, repeat_length; reflexivity).
  assert (Old : forall o k s, slot w o k = Some s -> array (h_new w m) s = array w s) by (intros o k s E; unfold array, h_new; cbn [w_heap]; apply app_nth1; apply (V _ _ _ E)).
  split; [split|].
  - intros o k s E. rewrite new_slot in E. destruct (Nat.eqb_spec o (length (w_objs w))) as [->|No].
    + destruct (Nat.ltb_spec k m) as [L|L]; [|discriminate]. injection E as <-. cbn [h_arr h_len]. split; lia.
    + rewrite (Old _ _ _ E). destruct (V _ _ _ E). split; [lia|assumption].
  - intros o k s o' k' s' E E' C. rewrite new_slot in E, E'.
    destruct (Nat.eqb_spec o (length (w_objs w))) as [Eo|No], (Nat.eqb_spec o' (length (w_objs w))) as [Eo'|No'].
    + destruct (k <? m); [|discriminate]. destruct (k' <? m); [|discriminate]. injection E as <-. injection E' as <-. cbn in C. split; lia.
    + destruct (k <? m); [|discriminate]. injection E as <-. cbn in C. destruct (V _ _ _ E'). lia.
    + destruct (k' <? m); [|discriminate]. injection E' as <-. cbn in C. destruct (V _ _ _ E). lia.
    + exact (D _ _ _ _ _ _ E E' C).
  - apply ext2.
    + rewrite shape_show. unfold h_new. cbn [w_objs]. rewrite !map_app, shape_show. f_equal. cbn. rewrite map_length, seq_length, repeat_length. reflexivity.
    + intros o k. rewrite at2_show, new_slot. unfold at2. destruct (Nat.eqb_spec o (length (w_objs w))) as [->|No].
      * rewrite nth_error_app2 by (unfold show; rewrite map_length; lia). replace (length (w_objs w) - length (show w)) with 0 by (unfold show; rewrite map_length; lia). cbn [nth_error].
        destruct (Nat.ltb_spec k m) as [L|L]; [|symmetry; apply nth_error_None; rewrite repeat_length; exact L].
        cbn. rewrite (nth_error_nth' (repeat [] m) []) by (rewrite repeat_length; exact L). rewrite nth_repeat. reflexivity.
      * destruct (Nat.lt_ge_cases o (length (w_objs w))) as [L|L].
        -- rewrite nth_error_app1 by (unfold show; rewrite map_length; exact L). change (match nth_error (show w) o with Some v => nth_error v k | None => None end) with (at2 (show w) o k). rewrite at2_show. destruct (slot w o k) as [t|] eqn:Et; [|reflexivity].
           cbn. f_equal. unfold read. rewrite (Old _ _ _ Et). reflexivity.
        -- rewrite (proj2 (nth_error_None (show w ++ _) o)) by (unfold show; rewrite app_length, map_length; cbn; lia). unfold slot. rewrite (proj2 (nth_error_None (w_objs w) o) L). reflexivity.
Qed.

Lemma exec_refines w op : own w -> two_objects op -> option_map show (h_exec zero w op) = v_exec (show w) op /\ (forall w', h_exec zero w op = Some w' -> own w').
Proof.
  intros O T. destruct op as [m|o k i v|o k n|o k v e|d o]; cbn [h_exec].
  - destruct (new_refines w m O) as [O' Sh]. cbn [option_map v_exec]. rewrite Sh. split; [reflexivity|intros ? [= <-]; exact O'].
  - unfold h_write. cbn [v_exec]. destruct (slot w o k) as [s|] eqn:E; [|rewrite change_none by exact E; split; [reflexivity|discriminate]].
    rewrite (change_upd _ _ _ _ _ O E), (read_len _ _ _ _ O E). destruct (Nat.ltb_spec i (h_len s)) as [L|L]; [|split; [reflexivity|discriminate]].
    destruct (upd_result _ _ _ _ _ O (write_upd w o k s i v O E L)) as [Sh O']. cbn [option_map]. rewrite Sh. split; [reflexivity|intros ? [= <-]; exact O'].
  - unfold h_cut. cbn [v_exec]. destruct (slot w o k) as [s|] eqn:E; [|rewrite change_none by exact E; split; [reflexivity|discriminate]].
    rewrite (change_upd _ _ _ _ _ O E), (read_len _ _ _ _ O E). destruct (Nat.leb_spec n (h_len s)) as [L|L]; [|split; [reflexivity|discriminate]].
    destruct (upd_result _ _ _ _ _ O (cut_upd w o k s n O E L)) as [Sh O']. cbn [option_map]. rewrite Sh. split; [reflexivity|intros ? [= <-]; exact O'].
  - cbn [v_exec]. destruct (slot w o k) as [s|] eqn:E.
    + destruct (append_upd w o k s v e O E) as (w' & Ew & U). rewrite Ew, (change_upd _ _ _ _ _ O E). destruct (upd_result _ _ _ _ _ O U) as [Sh O']. cbn [option_map]. rewrite Sh. split; [reflexivity|intros ? [= <-]; exact O'].
    + unfold h_append. rewrite E, change_none by exact E. split; [reflexivity|discriminate].
  - exact (h_set_refines w d o O T).
Qed.
Lemma run_refines ops : forall w, own w -> Forall two_objects ops -> option_map show (h_run zero w ops) = v_run (show w) ops /\ (forall w', h_run zero w ops = Some w' -> own w').
Proof.
  induction ops as [|op ops IH]; intros w O T; cbn; [split; [reflexivity|intros ? [= <-]; exact O]|].
  inversion T as [|? ? T1 T2]; subst. destruct (exec_refines w op O T1) as [R O1]. destruct (h_exec zero w op) as [w1|]; cbn in R.
  - rewrite <- R. apply IH; auto.
  - rewrite <- R. split; [reflexivity|discriminate].
Qed.
Lemma own_none : own no_objects.
Proof. split; intros o k s; unfold slot, no_objects; cbn; destruct o; discriminate. Qed.
End Own.
