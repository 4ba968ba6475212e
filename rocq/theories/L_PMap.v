(** The point map refines a multiset. *)
From Coq Require Import ZArith List Bool Permutation Lia.
From Verif Require Import GoNum M_Norm M_Slice M_Geom M_Image M_Raster M_Delaunay S_Delaunay.
Import ListNotations.
Open Scope Z_scope.

(* ---------------------------------------------------------------- *)
(** * Lists indexed by integers *)
Lemma znth_nat {A} (l : list A) n : znth l (Z.of_nat n) = nth_error l n.
Proof. unfold znth. destruct (Z.ltb_spec (Z.of_nat n) 0); [lia|]. now rewrite Nat2Z.id. Qed.
Lemma znth_Some {A} (l : list A) i a : znth l i = Some a -> 0 <= i < Z.of_nat (length l) /\ nth_error l (Z.to_nat i) = Some a.
Proof.
  unfold znth. destruct (Z.ltb_spec i 0); [discriminate|]. intros E. split; [|exact E].
  assert (nth_error l (Z.to_nat i) <> None) as N by congruence. apply nth_error_Some in N. lia.
Qed.
Lemma znth_lt {A} (l : list A) i : 0 <= i < Z.of_nat (length l) -> exists a, znth l i = Some a.
Proof.
  intros H. unfold znth. destruct (Z.ltb_spec i 0); [lia|].
  destruct (nth_error l (Z.to_nat i)) eqn:E; [eauto|]. apply nth_error_None in E. lia.
Qed.
Lemma znth_None {A} (l : list A) i : i < 0 \/ Z.of_nat (length l) <= i -> znth l i = None.
Proof.
  intros H. unfold znth. destruct (Z.ltb_spec i 0); [reflexivity|]. apply nth_error_None. lia.
Qed.
Lemma set_nth_length {A} i (a : A) l : length (set_nth i a l) = length l.
Proof. revert i; induction l; destruct i; cbn; auto. Qed.
Lemma nth_error_set_nth {A} i j (a : A) l : nth_error (set_nth i a l) j = if (i =? j)%nat then (if (j <? length l)%nat then Some a else None) else nth_error l j.
Proof.
  revert i j; induction l as [|x l IH]; intros i j.
  - destruct i, j; cbn; try reflexivity. destruct (i =? j)%nat; reflexivity.
  - destruct i, j; cbn; try reflexivity. rewrite IH. reflexivity.
Qed.
Lemma zset_spec {A} (l : list A) i a : 0 <= i < Z.of_nat (length l) ->
  exists l', zset l i a = Some l' /\ length l' = length l /\ forall j, znth l' j = if i =? j then Some a else znth l j.
Proof.
  intros H. unfold zset. destruct (znth_lt l i H) as (x & ->). eexists. split; [reflexivity|].
  split; [apply set_nth_length|]. intros j. unfold znth. destruct (Z.ltb_spec j 0).
  - destruct (Z.eqb_spec i j); [lia|reflexivity].
  - rewrite nth_error_set_nth. destruct (Z.eqb_spec i j) as [->|N].
    + rewrite Nat.eqb_refl. destruct (Nat.ltb_spec (Z.to_nat j) (length l)); [reflexivity|lia].
    + destruct (Nat.eqb_spec (Z.to_nat i) (Z.to_nat j)); [lia|reflexivity].
Qed.
Lemma zset_inv {A} (l l' : list A) i a : zset l i a = Some l' ->
  0 <= i < Z.of_nat (length l) /\ length l' = length l /\ forall j, znth l' j = if i =? j then Some a else znth l j.
Proof.
  intros H. assert (0 <= i < Z.of_nat (length l)).
  { unfold zset in H. destruct (znth l i) eqn:E; [|discriminate]. apply znth_Some in E. tauto. }
  split; [assumption|]. destruct (zset_spec l i a H0) as (l2 & E & L & Q). rewrite E in H. injection H as <-. auto.
Qed.
Lemma znth_In {A} (l : list A) i a : znth l i = Some a -> In a l.
Proof. intros H. apply znth_Some in H. eapply nth_error_In, H. Qed.

(* ---------------------------------------------------------------- *)
(** * swap_delete *)
Lemma swap_delete_last {A} (m : list A) z i : swap_delete i (m ++ [z]) = if (i <? length m)%nat then set_nth i z m else m.
Proof.
  unfold swap_delete. rewrite app_length. cbn [length]. replace (length m + 1 - 1)%nat with (length m) by lia.
  rewrite nth_error_app2, Nat.sub_diag by lia. cbn [nth_error].
  revert i. induction m as [|a m IH]; intros i; [destruct i; reflexivity|].
  destruct i; cbn [app set_nth length firstn].
  - f_equal. rewrite firstn_app, Nat.sub_diag, firstn_all. cbn. now rewrite app_nil_r.
  - rewrite IH. change (S i <? S (length m))%nat with (i <? length m)%nat. destruct (i <? length m)%nat; reflexivity.
Qed.
Lemma swap_delete_perm {A} (l : list A) i x : nth_error l i = Some x -> Permutation (x :: swap_delete i l) l.
Proof.
  intros H. assert (i < length l)%nat by (apply nth_error_Some; congruence).
  assert (N : l <> []) by (destruct l; [cbn in *; lia|discriminate]).
  destruct (exists_last N) as (m & z & ->). rewrite swap_delete_last. rewrite app_length in H0. cbn in H0.
  destruct (Nat.ltb_spec i (length m)) as [Li|Li].
  - rewrite nth_error_app1 in H by lia. clear -H. revert i H. induction m as [|a m IH]; intros i H; [destruct i; discriminate|].
    destruct i; cbn in *.
    + injection H as ->. constructor. apply Permutation_cons_append.
    + eapply perm_trans; [apply perm_swap|]. constructor. eapply IH, H.
  - assert (i = length m) as -> by lia. rewrite nth_error_app2, Nat.sub_diag in H by lia. cbn in H. injection H as ->. apply Permutation_cons_append.
Qed.
Lemma find_index_Some {A} (f : A -> bool) l k : find_index f l = Some k -> exists a, nth_error l k = Some a /\ f a = true /\ find f l = Some a.
Proof.
  revert k; induction l as [|a l IH]; cbn; intros k; [discriminate|].
  destruct (f a) eqn:E.
  - intros [= <-]. cbn. eauto.
  - destruct (find_index f l); cbn; [|discriminate]. intros [= <-]. apply IH; reflexivity.
Qed.
Lemma find_index_None {A} (f : A -> bool) l : find_index f l = None -> forall a, In a l -> f a = false.
Proof.
  induction l as [|a l IH]; cbn; intros H b; [intros []|].
  destruct (f a) eqn:E; [discriminate|]. destruct (find_index f l); [discriminate|]. intros [<-|I]; auto.
Qed.

(* ---------------------------------------------------------------- *)
(** * int16 / uint16 *)
Definition int16_range (z : Z) : Prop := - 2 ^ 15 <= z < 2 ^ 15.
Lemma i16_id z : int16_range z -> i16 z = z.
Proof. unfold int16_range, i16, wraps. intros H. change (2 ^ (16 - 1)) with (2 ^ 15). change (2^16) with 65536 in *. change (2^15) with 32768 in *. rewrite Z.mod_small; lia. Qed.
Lemma i16_u16 z : int16_range z -> i16 (u16 z) = z.
Proof.
  unfold int16_range, i16, u16, wraps, wrapu. intros H. change (2 ^ (16 - 1)) with 32768. change (2^16) with 65536 in *. change (2^15) with 32768 in *.
  rewrite Z.add_mod_idemp_l by lia. rewrite Z.mod_small; lia.
Qed.
Lemma u16_inj a b : int16_range a -> int16_range b -> u16 a = u16 b -> a = b.
Proof. intros Ha Hb E. rewrite <- (i16_u16 a Ha), <- (i16_u16 b Hb). now rewrite E. Qed.
Lemma u16_id z : 0 <= z < 65536 -> u16 z = z.
Proof. intros. unfold u16, wrapu. change (2^16) with 65536. now apply Z.mod_small. Qed.

Definition point16 (p : point) : Prop := int16_range (px p) /\ int16_range (py p).

Lemma u16p_inj p q : point16 p -> point16 q -> u16 (px p) = u16 (px q) -> u16 (py p) = u16 (py q) -> p = q.
Proof. destruct p, q; unfold point16; cbn. intros [] [] A B. f_equal; apply u16_inj; auto. Qed.

(* ---------------------------------------------------------------- *)
(** * Invariant *)
Definition hashable (p : point) : Prop := point16 p /\ 0 <= point_hash p.

Definition idx (n : nat) (p : point) : Z := point_hash p mod Z.of_nat n.

Definition entry_of (p : point) (c : Z) : pentry := PE (u16 (px p)) (u16 (py p)) c.

(** What bucket [i] must look like for the multiset [l]. *)
Record bucket_ok (n : nat) (l : list point) (i : Z) (b : list pentry) : Prop := {
  b_entries : forall e, In e b -> exists p, hashable p /\ idx n p = i /\ In p l /\ e = entry_of p (mult l p);
  b_all : forall p, In p l -> idx n p = i -> In (entry_of p (mult l p)) b;
  b_nodup : NoDup (map (fun e => (pe_x e, pe_y e)) b) }.

Record pm_ok (pm : pmap) (l : list point) : Prop := {
  p_nonempty : (0 < length pm)%nat;
  p_hash : Forall hashable l;
  p_small : forall p, mult l p < 65536;
  p_bucket : forall i b, znth pm i = Some b -> bucket_ok (length pm) l i b }.

Lemma idx_range n p : (0 < n)%nat -> 0 <= idx n p < Z.of_nat n.
Proof. intros. unfold idx. apply Z.mod_pos_bound. lia. Qed.

Lemma bucket_eq {A} (pm : list (list A)) p : (0 < length pm)%nat -> hashable p ->
  exists b, znth pm (idx (length pm) p) = Some b /\ bucket pm p = Some (idx (length pm) p, b).
Proof.
  intros L (_ & H). destruct (znth_lt pm (idx (length pm) p)) as (b & E); [apply idx_range; lia|].
  exists b. split; [exact E|]. unfold bucket, bucket_index. destruct (Nat.eqb_spec (length pm) 0); [lia|].
  rewrite Z.rem_mod_nonneg by lia. fold (idx (length pm) p). now rewrite E.
Qed.

Lemma mult_cons q l p : mult (q :: l) p = (if point_eq_dec q p then 1 else 0) + mult l p.
Proof. unfold mult. cbn [count_occ]. destruct (point_eq_dec q p); lia. Qed.
Lemma mult_pos l p : In p l <-> 0 < mult l p.
Proof. unfold mult. rewrite (count_occ_In point_eq_dec). lia. Qed.
Lemma mult_nonneg l p : 0 <= mult l p. Proof. unfold mult. lia. Qed.

Lemma entry_is_spec p q c : point16 p -> point16 q -> entry_is p (entry_of q c) = true <-> p = q.
Proof.
  intros Hp Hq. unfold entry_is. cbn. rewrite andb_true_iff, !Z.eqb_eq. split.
  - intros []. now apply u16p_inj.
  - intros ->; auto.
Qed.

Lemma find_bucket n l i b p : (forall p, In p l -> hashable p) -> bucket_ok n l i b -> hashable p -> idx n p = i ->
  find (entry_is p) b = if mult l p =? 0 then None else Some (entry_of p (mult l p)).
Proof.
  intros HL B Hp Hi. destruct (find (entry_is p) b) as [e|] eqn:E.
  - apply find_some in E. destruct E as [I T]. destruct (b_entries _ _ _ _ B e I) as (q & Hq & _ & Iq & ->).
    apply entry_is_spec in T; [|apply Hp|apply Hq]. subst q.
    apply mult_pos in Iq. destruct (Z.eqb_spec (mult l p) 0); [lia|reflexivity].
  - destruct (Z.eqb_spec (mult l p) 0) as [Z0|N]; [reflexivity|]. exfalso.
    assert (I : In p l) by (apply mult_pos; pose proof (mult_nonneg l p); lia).
    pose proof (find_none _ _ E _ (b_all _ _ _ _ B p I Hi)) as X. cbv beta in X.
    assert (entry_is p (entry_of p (mult l p)) = true) by (apply entry_is_spec; auto; apply Hp). congruence.
Qed.

Lemma bucket_incr_None p b : bucket_incr p b = None -> find (entry_is p) b = None.
Proof. induction b as [|e b IH]; cbn; auto. destruct (entry_is p e); [discriminate|]. destruct (bucket_incr p b) as [[]|]; [discriminate|auto]. Qed.
Lemma bucket_incr_Some p b b' c : bucket_incr p b = Some (b', c) ->
  exists b1 e b2, b = b1 ++ e :: b2 /\ find (entry_is p) b = Some e /\ c = u16 (pe_count e + 1) /\ b' = b1 ++ PE (pe_x e) (pe_y e) c :: b2.
Proof.
  revert b'; induction b as [|e b IH]; cbn; intros b'; [discriminate|].
  destruct (entry_is p e) eqn:E.
  - intros [= <- <-]. exists [], e, b. auto.
  - destruct (bucket_incr p b) as [[b0 c0]|]; [|discriminate]. intros [= <- <-].
    destruct (IH b0 eq_refl) as (b1 & e1 & b2 & -> & F & -> & ->). exists (e :: b1), e1, b2. cbn. auto.
Qed.

(** Changing bucket [i] only. *)
Lemma pm_ok_update pm l l' p b' : pm_ok pm l -> hashable p -> Forall hashable l' -> (forall q, mult l' q < 65536) ->
  (forall q, q <> p -> mult l' q = mult l q) ->
  bucket_ok (length pm) l' (idx (length pm) p) b' ->
  exists pm', zset pm (idx (length pm) p) b' = Some pm' /\ length pm' = length pm /\ pm_ok pm' l'.
Proof.
  intros O Hp HL HS HM B. destruct (zset_spec pm (idx (length pm) p) b') as (pm' & E & L & Q); [apply idx_range, O|].
  exists pm'. split; [exact E|]. split; [exact L|]. split.
  - rewrite L. apply O.
  - exact HL.
  - exact HS.
  - intros i b. rewrite Q, L. destruct (Z.eqb_spec (idx (length pm) p) i) as [<-|N].
    + intros [= <-]. exact B.
    + intros Eb. pose proof (p_bucket _ _ O i b Eb) as OB.
      assert (X : forall q, idx (length pm) q = i -> mult l' q = mult l q).
      { intros q Hq. apply HM. intros ->. contradiction. }
      split.
      * intros e I. destruct (b_entries _ _ _ _ OB e I) as (q & Hq & Iq & Il & ->). exists q. rewrite X by exact Iq.
        repeat split; try apply Hq; auto. apply mult_pos. rewrite X by exact Iq. now apply mult_pos.
      * intros q Iq Hq. rewrite (X q Hq). apply OB; [|exact Hq]. apply mult_pos. rewrite <- (X q Hq). now apply mult_pos.
      * apply OB.
Qed.

Lemma bucket_keys n l i b e : (forall p, In p l -> hashable p) -> bucket_ok n l i b -> In e b -> forall p, hashable p ->
  (pe_x e, pe_y e) = (u16 (px p), u16 (py p)) -> e = entry_of p (mult l p) /\ In p l.
Proof.
  intros HL B I p Hp [= Ex Ey]. destruct (b_entries _ _ _ _ B e I) as (q & Hq & _ & Il & ->). cbn in *.
  assert (p = q) by (apply u16p_inj; try apply Hp; try apply Hq; auto). subst q. auto.
Qed.

Lemma nodup_middle {A} (a b : list A) x y : NoDup (a ++ x :: b) -> In y (a ++ b) -> y <> x.
Proof. intros H I ->. apply NoDup_remove_2 in H. contradiction. Qed.

Lemma add_point_ok pm l p : pm_ok pm l -> hashable p -> mult l p < 65535 ->
  exists pm', add_point pm p = Some (pm', mult (p :: l) p) /\ length pm' = length pm /\ pm_ok pm' (p :: l).
Proof.
  intros O Hp HS. destruct (bucket_eq pm p (p_nonempty _ _ O) Hp) as (b & Eb & Ebk).
  pose proof (p_bucket _ _ O _ _ Eb) as B.
  assert (HLf := proj1 (Forall_forall _ _) (p_hash _ _ O)).
  assert (HL' : Forall hashable (p :: l)) by (constructor; [auto|apply O]).
  assert (HS' : forall q, mult (p :: l) q < 65536).
  { intros q. rewrite mult_cons. pose proof (p_small _ _ O q). destruct (point_eq_dec p q); [subst; lia|lia]. }
  assert (HM : forall q, q <> p -> mult (p :: l) q = mult l q).
  { intros q N. rewrite mult_cons. destruct (point_eq_dec p q); [congruence|lia]. }
  assert (Mp : mult (p :: l) p = mult l p + 1) by (rewrite mult_cons; destruct (point_eq_dec p p); [lia|congruence]).
  pose proof (find_bucket _ _ _ _ p HLf B Hp eq_refl) as F. pose proof (mult_nonneg l p) as NN.
  unfold add_point. rewrite Ebk. destruct (bucket_incr p b) as [[b' c]|] eqn:BI.
  - apply bucket_incr_Some in BI. destruct BI as (b1 & e & b2 & Hb & Fe & Hc & Hb').
    rewrite Fe in F. destruct (Z.eqb_spec (mult l p) 0) as [Z0|NZ]; [discriminate|]. injection F as Fe'.
    assert (Hc' : c = mult (p :: l) p). { rewrite Hc, Fe', Mp. cbn. apply u16_id. lia. }
    destruct (pm_ok_update pm l (p :: l) p b' O Hp HL' HS' HM) as (pm' & E & L & O').
    + pose proof (b_nodup _ _ _ _ B) as ND. rewrite Hb, map_app in ND. cbn [map] in ND.
      split.
      * intros e1 I1. rewrite Hb' in I1. apply in_app_or in I1.
        assert (C : e1 = PE (pe_x e) (pe_y e) c \/ In e1 (b1 ++ b2)).
        { destruct I1 as [I1|[I1|I1]]; [right; apply in_or_app; auto|left; auto|right; apply in_or_app; auto]. }
        destruct C as [->|I2].
        -- exists p. rewrite Fe'. cbn. rewrite Hc'. repeat split; try apply Hp; auto.
        -- assert (I3 : In e1 b). { rewrite Hb. apply in_app_or in I2. apply in_or_app. cbn. tauto. }
           destruct (b_entries _ _ _ _ B e1 I3) as (q & Hq & Iq & Il & E1).
           exists q. rewrite HM; [split; [exact Hq|]; split; [exact Iq|]; split; [right; exact Il|exact E1]|].
           intros ->. eapply (nodup_middle _ _ _ (pe_x e1, pe_y e1)) in ND.
           ++ apply ND. rewrite E1, Fe'. reflexivity.
           ++ rewrite <- map_app. apply (in_map (fun e => (pe_x e, pe_y e))). exact I2.
      * intros q Iq Hq. destruct (point_eq_dec q p) as [->|N].
        -- rewrite Hb'. apply in_or_app. right. left. rewrite Fe'. cbn. unfold entry_of. f_equal. exact Hc'.
        -- rewrite HM by exact N. assert (Il : In q l) by (destruct Iq; [congruence|auto]).
           pose proof (b_all _ _ _ _ B q Il Hq) as I. rewrite Hb in I. rewrite Hb'. apply in_app_or in I. apply in_or_app.
           destruct I as [I|[I|I]]; [left; auto| |right; right; auto]. exfalso. rewrite Fe' in I. injection I as Ix Iy _.
           apply N. symmetry. apply u16p_inj; auto; try apply Hp. apply HLf, Il.
      * rewrite Hb', map_app. cbn. exact ND.
    + exists pm'. rewrite E. cbn. rewrite Hc'. auto.
  - apply bucket_incr_None in BI. rewrite BI in F. destruct (Z.eqb_spec (mult l p) 0) as [Z0|NZ]; [|discriminate].
    destruct (pm_ok_update pm l (p :: l) p (b ++ [PE (u16 (px p)) (u16 (py p)) 1]) O Hp HL' HS' HM) as (pm' & E & L & O').
    + split.
      * intros e1 I1. apply in_app_or in I1. destruct I1 as [I1|[<-|[]]].
        -- destruct (b_entries _ _ _ _ B e1 I1) as (q & Hq & Iq & Il & E1). exists q. rewrite HM; [repeat split; try apply Hq; auto; right; auto|].
           intros ->. apply mult_pos in Il. lia.
        -- exists p. rewrite Mp, Z0. repeat split; try apply Hp. left; reflexivity.
      * intros q Iq Hq. apply in_or_app. destruct (point_eq_dec q p) as [->|N].
        -- right. left. rewrite Mp, Z0. reflexivity.
        -- left. rewrite HM by exact N. apply B; auto. destruct Iq; [congruence|auto].
      * rewrite map_app. cbn. apply NoDup_Add with (a := (u16 (px p), u16 (py p))) (l := map (fun e => (pe_x e, pe_y e)) b).
        { rewrite <- (app_nil_r (map _ b)) at 1. apply Add_app. }
        split; [apply B|]. intros I. apply in_map_iff in I. destruct I as (e & Ee & Ie).
        destruct (bucket_keys _ _ _ _ e HLf B Ie p Hp Ee) as [_ Il]. apply mult_pos in Il. lia.
    + exists pm'. rewrite E. cbn. rewrite Mp, Z0. auto.
Qed.

Lemma take_out_spec p l l' : take_out p l = Some l' -> Permutation (p :: l') l.
Proof.
  revert l'; induction l as [|q l IH]; cbn; intros l'; [discriminate|].
  destruct (point_eq_dec q p) as [->|N]; [intros [= <-]; reflexivity|].
  destruct (take_out p l); cbn; [|discriminate]. intros [= <-]. rewrite perm_swap. constructor. auto.
Qed.
Lemma take_out_None p l : take_out p l = None -> ~ In p l.
Proof.
  induction l as [|q l IH]; cbn; [tauto|]. destruct (point_eq_dec q p); [discriminate|].
  destruct (take_out p l); cbn; [discriminate|]. intros _ [E|I]; [congruence|]. now apply IH.
Qed.
Lemma mult_perm l l' p : Permutation l l' -> mult l p = mult l' p.
Proof. intros H. unfold mult. f_equal. now apply Permutation_count_occ. Qed.

Lemma set_nth_split {A} (b : list A) k (e x : A) : nth_error b k = Some e -> exists b1 b2, b = b1 ++ e :: b2 /\ length b1 = k /\ set_nth k x b = b1 ++ x :: b2.
Proof.
  revert k; induction b as [|a b IH]; intros k H; [destruct k; discriminate|].
  destruct k; cbn in H.
  - injection H as ->. exists [], b. auto.
  - destruct (IH k H) as (b1 & b2 & -> & L & E). exists (a :: b1), b2. cbn. rewrite E. auto.
Qed.

Lemma remove_point_ok pm l p : pm_ok pm l -> hashable p ->
  match take_out p l with
  | None => remove_point pm p = None
  | Some l' => exists pm', remove_point pm p = Some (pm', mult l' p) /\ length pm' = length pm /\ pm_ok pm' l'
  end.
Proof.
  intros O Hp. destruct (bucket_eq pm p (p_nonempty _ _ O) Hp) as (b & Eb & Ebk).
  pose proof (p_bucket _ _ O _ _ Eb) as B.
  assert (HLf := proj1 (Forall_forall _ _) (p_hash _ _ O)).
  pose proof (find_bucket _ _ _ _ p HLf B Hp eq_refl) as F.
  destruct (take_out p l) as [l'|] eqn:T.
  - apply take_out_spec in T.
    assert (M0 : forall q, mult l q = (if point_eq_dec p q then 1 else 0) + mult l' q) by (intros q; rewrite <- (mult_perm _ _ q T), mult_cons; reflexivity).
    assert (Mp : mult l p = 1 + mult l' p) by (rewrite M0; destruct (point_eq_dec p p); [lia|congruence]).
    pose proof (mult_nonneg l' p) as NN. pose proof (p_small _ _ O p) as SM.
    assert (HL' : Forall hashable l').
    { apply Forall_forall. intros q I. apply HLf. eapply Permutation_in; [exact T|]. right; auto. }
    assert (HS' : forall q, mult l' q < 65536).
    { intros q. pose proof (p_small _ _ O q). rewrite M0 in H. destruct (point_eq_dec p q); lia. }
    assert (HM : forall q, q <> p -> mult l' q = mult l q).
    { intros q N. rewrite M0. destruct (point_eq_dec p q); [congruence|lia]. }
    destruct (Z.eqb_spec (mult l p) 0); [lia|].
    unfold remove_point. rewrite Ebk. destruct (find_index (entry_is p) b) as [k|] eqn:FI.
    2:{ exfalso. apply find_some in F. pose proof (find_index_None _ _ FI _ (proj1 F)). rewrite (proj2 F) in H. discriminate. }
    apply find_index_Some in FI. destruct FI as (e & En & Et & Fe). rewrite F in Fe. injection Fe as <-.
    rewrite En. cbn [entry_of pe_count pe_x pe_y].
    assert (C : u16 (mult l p - 1) = mult l' p) by (rewrite u16_id; lia). rewrite C.
    pose proof (b_nodup _ _ _ _ B) as ND.
    destruct (Z.eqb_spec (mult l' p) 0) as [Z0|NZ].
    + pose proof (swap_delete_perm _ _ _ En) as P.
      destruct (pm_ok_update pm l l' p (swap_delete k b) O Hp HL' HS' HM) as (pm' & E & L & O').
      * assert (ND2 : NoDup (map (fun e => (pe_x e, pe_y e)) (entry_of p (mult l p) :: swap_delete k b))).
        { eapply Permutation_NoDup; [apply Permutation_map, Permutation_sym, P|exact ND]. }
        cbn [map] in ND2. inversion ND2 as [|x0 l0 NI ND3]; subst.
        split.
        -- intros e1 I1. assert (I : In e1 b) by (eapply Permutation_in; [exact P|right; exact I1]).
           destruct (b_entries _ _ _ _ B e1 I) as (q & Hq & Iq & Il & E1).
           assert (N : q <> p).
           { intros ->. apply NI. change (In ((fun e => (pe_x e, pe_y e)) (entry_of p (mult l p))) (map (fun e => (pe_x e, pe_y e)) (swap_delete k b))).
             rewrite <- E1. apply (in_map (fun e => (pe_x e, pe_y e))). exact I1. }
           exists q. rewrite HM by exact N. repeat split; try apply Hq; auto.
           apply mult_pos. rewrite HM by exact N. now apply mult_pos.
        -- intros q Iq Hq. assert (N : q <> p) by (intros ->; apply mult_pos in Iq; lia).
           rewrite HM by exact N. assert (Il : In q l) by (apply mult_pos; rewrite <- HM by exact N; now apply mult_pos).
           pose proof (b_all _ _ _ _ B q Il Hq) as I. eapply Permutation_in in I; [|apply Permutation_sym, P].
           destruct I as [I|I]; [|exact I]. exfalso. injection I as Ix Iy _. apply N. symmetry. apply u16p_inj; auto; try apply Hp. apply HLf, Il.
        -- exact ND3.
      * exists pm'. rewrite E. cbn. rewrite Z0. auto.
    + destruct (set_nth_split b k _ (PE (u16 (px p)) (u16 (py p)) (mult l' p)) En) as (b1 & b2 & Hb & _ & Hs).
      destruct (pm_ok_update pm l l' p (set_nth k (PE (u16 (px p)) (u16 (py p)) (mult l' p)) b) O Hp HL' HS' HM) as (pm' & E & L & O').
      * rewrite Hs. rewrite Hb, map_app in ND. cbn [map] in ND.
        split.
        -- intros e1 I1. apply in_app_or in I1.
           assert (Cs : e1 = PE (u16 (px p)) (u16 (py p)) (mult l' p) \/ In e1 (b1 ++ b2)).
           { destruct I1 as [I1|[I1|I1]]; [right; apply in_or_app; auto|left; auto|right; apply in_or_app; auto]. }
           destruct Cs as [->|I2].
           ++ exists p. repeat split; try apply Hp. apply mult_pos. lia.
           ++ assert (I3 : In e1 b). { rewrite Hb. apply in_app_or in I2. apply in_or_app. cbn. tauto. }
              destruct (b_entries _ _ _ _ B e1 I3) as (q & Hq & Iq & Il & E1).
              assert (N : q <> p).
              { intros ->. eapply (nodup_middle _ _ _ (pe_x e1, pe_y e1)) in ND.
                - apply ND. rewrite E1. reflexivity.
                - rewrite <- map_app. apply (in_map (fun e => (pe_x e, pe_y e))). exact I2. }
              exists q. rewrite HM by exact N. repeat split; try apply Hq; auto.
              apply mult_pos. rewrite HM by exact N. now apply mult_pos.
        -- intros q Iq Hq. destruct (point_eq_dec q p) as [->|N].
           ++ apply in_or_app. right. left. reflexivity.
           ++ rewrite HM by exact N. assert (Il : In q l) by (apply mult_pos; rewrite <- HM by exact N; now apply mult_pos).
              pose proof (b_all _ _ _ _ B q Il Hq) as I. rewrite Hb in I. apply in_app_or in I. apply in_or_app.
              destruct I as [I|[I|I]]; [left; auto| |right; right; auto]. exfalso. injection I as Ix Iy _.
              apply N. symmetry. apply u16p_inj; auto; try apply Hp. apply HLf, Il.
        -- rewrite map_app. cbn. exact ND.
      * exists pm'. rewrite E. cbn. auto.
  - apply take_out_None in T. unfold remove_point. rewrite Ebk.
    destruct (find_index (entry_is p) b) as [k|] eqn:FI; [|reflexivity].
    apply find_index_Some in FI. destruct FI as (e & _ & _ & Fe). rewrite Fe in F.
    destruct (Z.eqb_spec (mult l p) 0); [discriminate|]. exfalso. apply T, mult_pos. pose proof (mult_nonneg l p). lia.
Qed.

Lemma copies_of_ok pm l p : pm_ok pm l -> hashable p -> copies_of pm p = Some (mult l p).
Proof.
  intros O Hp. destruct (bucket_eq pm p (p_nonempty _ _ O) Hp) as (b & Eb & Ebk).
  pose proof (p_bucket _ _ O _ _ Eb) as B. unfold copies_of. rewrite Ebk.
  rewrite (find_bucket _ _ _ _ p (proj1 (Forall_forall _ _) (p_hash _ _ O)) B Hp eq_refl).
  destruct (Z.eqb_spec (mult l p) 0) as [->|]; reflexivity.
Qed.

Lemma new_point_map_ok n : 0 < n -> exists pm, new_point_map n = Some pm /\ Z.of_nat (length pm) = n /\ pm_ok pm [].
Proof.
  intros H. exists (repeat [] (Z.to_nat n)). unfold new_point_map. destruct (Z.ltb_spec n 0); [lia|].
  rewrite repeat_length. split; [reflexivity|]. split; [lia|]. split.
  - rewrite repeat_length. lia.
  - constructor.
  - intros p. cbn. lia.
  - intros i b E. apply znth_In, repeat_spec in E. subst b. split; [intros e []|intros p []|constructor].
Qed.

(* ---------------------------------------------------------------- *)
(** * Iteration *)
Lemma concat_In_znth {A} (pm : list (list A)) e : In e (concat pm) <-> exists i b, znth pm i = Some b /\ In e b.
Proof.
  rewrite in_concat. split.
  - intros (b & I & J). apply In_nth_error in I. destruct I as (n & E). exists (Z.of_nat n), b. rewrite znth_nat. auto.
  - intros (i & b & E & J). exists b. split; [eapply znth_In, E|exact J].
Qed.

Lemma pm_iter_In pm l p : pm_ok pm l -> In p (pm_iter pm) <-> In p l.
Proof.
  intros O. unfold pm_iter. rewrite in_map_iff. split.
  - intros (e & <- & I). apply concat_In_znth in I. destruct I as (i & b & E & I).
    destruct (b_entries _ _ _ _ (p_bucket _ _ O _ _ E) e I) as (q & Hq & _ & Il & ->). cbn.
    rewrite !i16_u16 by apply Hq. destruct q; exact Il.
  - intros I. assert (Hp : hashable p) by (eapply Forall_forall; [apply O|exact I]).
    exists (entry_of p (mult l p)). split.
    + cbn. rewrite !i16_u16 by apply Hp. destruct p; reflexivity.
    + apply concat_In_znth. destruct (bucket_eq pm p (p_nonempty _ _ O) Hp) as (b & Eb & _).
      exists (idx (length pm) p), b. split; [exact Eb|]. apply (p_bucket _ _ O _ _ Eb); auto.
Qed.

Lemma NoDup_app_iff_local {A} (l1 l2 : list A) : NoDup l1 -> NoDup l2 -> (forall a, In a l1 -> In a l2 -> False) -> NoDup (l1 ++ l2).
Proof.
  induction l1 as [|a l1 IH]; cbn; intros H1 H2 H; auto. inversion H1; subst. constructor.
  - intros I. apply in_app_or in I. destruct I; [auto|]. eapply H; eauto.
  - apply IH; auto. intros b I J. eapply H; eauto.
Qed.

Lemma pm_iter_NoDup pm l : pm_ok pm l -> NoDup (pm_iter pm).
Proof.
  intros O. unfold pm_iter.
  assert (G : forall m, (forall i b, nth_error pm (m + i) = Some b -> True) -> True) by auto. clear G.
  (* prove by suffixes *)
  assert (S : forall k, (k <= length pm)%nat -> NoDup (map (fun e => Pt (i16 (pe_x e)) (i16 (pe_y e))) (concat (skipn (length pm - k) pm)))).
  { induction k as [|k IH]; intros Hk.
    - rewrite Nat.sub_0_r, skipn_all. constructor.
    - set (j := (length pm - S k)%nat). destruct (nth_error pm j) as [b|] eqn:E; [|apply nth_error_None in E; lia].
      assert (SK : skipn j pm = b :: skipn (S j) pm).
      { clear -E. clearbody j. revert pm E. induction j; intros [|x pm] E; cbn in *; try discriminate; [congruence|]. rewrite (IHj _ E). reflexivity. }
      rewrite SK. cbn [concat]. rewrite map_app. replace (S j) with (length pm - k)%nat by lia.
      assert (Eb : znth pm (Z.of_nat j) = Some b) by (now rewrite znth_nat).
      pose proof (p_bucket _ _ O _ _ Eb) as B.
      apply NoDup_app_iff_local.
      + assert (X : forall b', (forall e, In e b' -> In e b) -> NoDup (map (fun e => (pe_x e, pe_y e)) b') -> NoDup (map (fun e => Pt (i16 (pe_x e)) (i16 (pe_y e))) b')).
        { induction b' as [|e b' IHb]; cbn; intros Hin ND; [constructor|]. inversion ND; subst. constructor; [|apply IHb; auto].
          intros I. apply in_map_iff in I. destruct I as (e2 & Ee & I2).
          destruct (b_entries _ _ _ _ B e (Hin e (or_introl eq_refl))) as (q & Hq & _ & _ & ->).
          destruct (b_entries _ _ _ _ B e2 (Hin e2 (or_intror I2))) as (q2 & Hq2 & _ & _ & ->). cbn in Ee.
          rewrite !i16_u16 in Ee by (apply Hq || apply Hq2). injection Ee as Ex Ey.
          apply H1. apply in_map_iff. exists (entry_of q2 (mult l q2)). split; [|exact I2]. cbn. now rewrite Ex, Ey. }
        apply X; [auto|apply B].
      + apply IH. lia.
      + intros p I1 I2. apply in_map_iff in I1. destruct I1 as (e1 & E1 & I1). apply in_map_iff in I2. destruct I2 as (e2 & E2 & I2).
        destruct (b_entries _ _ _ _ B e1 I1) as (q & Hq & Iq & _ & ->).
        apply in_concat in I2. destruct I2 as (b2 & J & I2). apply In_nth_error in J. destruct J as (m & J).
        assert (Eb2 : znth pm (Z.of_nat (length pm - k + m)) = Some b2).
        { rewrite znth_nat. rewrite <- J. clear. generalize (length pm - k)%nat as a. intros a. revert pm. induction a; intros [|x pm]; cbn; auto. destruct m; reflexivity. }
        destruct (b_entries _ _ _ _ (p_bucket _ _ O _ _ Eb2) e2 I2) as (q2 & Hq2 & Iq2 & _ & ->). cbn in E1, E2.
        rewrite !i16_u16 in E1 by apply Hq. rewrite !i16_u16 in E2 by apply Hq2.
        assert (q = q2) by (rewrite <- E2 in E1; destruct q, q2; exact E1). subst q2. rewrite Iq in Iq2. unfold j in Iq2. lia. }
  specialize (S (length pm) ltac:(lia)). rewrite Nat.sub_diag in S. exact S.
Qed.

Lemma fold_count (es : list pentry) n : fold_left (fun n e => n + pe_count e) es n = n + fold_right (fun e s => pe_count e + s) 0 es.
Proof. revert n; induction es as [|e es IH]; cbn; intros; [lia|]. rewrite IH. lia. Qed.

Lemma mult_remove_len (l : list point) p : Z.of_nat (length l) = mult l p + Z.of_nat (length (List.remove point_eq_dec p l)).
Proof.
  induction l as [|q l IH]; [reflexivity|]. rewrite mult_cons. cbn [length List.remove].
  destruct (point_eq_dec p q), (point_eq_dec q p); try congruence; cbn [length]; lia.
Qed.
Lemma mult_remove_other (l : list point) p q : q <> p -> mult (List.remove point_eq_dec p l) q = mult l q.
Proof.
  intros N. induction l as [|r l IH]; [reflexivity|]. cbn [List.remove]. rewrite mult_cons.
  destruct (point_eq_dec p r) as [->|]; [destruct (point_eq_dec r q); [congruence|lia]|]. rewrite mult_cons. lia.
Qed.

Lemma sum_mult ks : forall l, NoDup ks -> (forall p, In p l -> In p ks) ->
  fold_right (fun p s => mult l p + s) 0 ks = Z.of_nat (length l).
Proof.
  induction ks as [|k ks IH]; intros l ND H; cbn.
  - destruct l as [|p l]; [reflexivity|]. destruct (H p (or_introl eq_refl)).
  - inversion ND; subst. rewrite (mult_remove_len l k). f_equal. rewrite <- (IH (List.remove point_eq_dec k l)); auto.
    + clear -H2. induction ks as [|q ks IH]; cbn; [reflexivity|]. rewrite mult_remove_other.
      * rewrite IH; [reflexivity|]. intros I. apply H2. right; auto.
      * intros ->. apply H2. left; reflexivity.
    + intros p I. apply in_remove in I. destruct I as [I N]. destruct (H p I); [congruence|auto].
Qed.

Lemma pm_num_points_ok pm l : pm_ok pm l -> pm_num_points pm = Z.of_nat (length l).
Proof.
  intros O. unfold pm_num_points. rewrite fold_count.
  rewrite <- (sum_mult (pm_iter pm) l (pm_iter_NoDup pm l O)) by (intros p I; now apply (pm_iter_In pm l p O)).
  unfold pm_iter. cbn [Z.add].
  assert (X : forall es, (forall e, In e es -> In e (concat pm)) ->
     fold_right (fun e s => pe_count e + s) 0 es = fold_right (fun p s => mult l p + s) 0 (map (fun e => Pt (i16 (pe_x e)) (i16 (pe_y e))) es)).
  { induction es as [|e es IH]; cbn; intros H; [reflexivity|]. rewrite IH by auto. f_equal.
    assert (I : In e (concat pm)) by (apply H; auto). apply concat_In_znth in I. destruct I as (i & b & E & I).
    destruct (b_entries _ _ _ _ (p_bucket _ _ O _ _ E) e I) as (q & Hq & _ & _ & ->). cbn.
    rewrite !i16_u16 by apply Hq. destruct q; reflexivity. }
  rewrite X by auto. reflexivity.
Qed.
