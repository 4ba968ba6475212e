(** The polygon map is a multiset of entries. *)
From Coq Require Import ZArith List Bool Permutation Lia.
From Verif Require Import GoNum M_Norm M_Slice M_Geom M_Image M_Raster M_Delaunay S_Delaunay L_PMap.
Import ListNotations.
Open Scope Z_scope.

Lemma peq_true p q : peq p q = true <-> p = q.
Proof. unfold peq. rewrite andb_true_iff, !Z.eqb_eq. destruct p, q; cbn. split; [intros [-> ->]; reflexivity|intros [= -> ->]; auto]. Qed.
Lemma peq_false p q : peq p q = false <-> p <> q.
Proof. rewrite <- peq_true. destruct (peq p q); split; congruence. Qed.
Lemma peq_refl p : peq p p = true. Proof. now apply peq_true. Qed.
Lemma peq_sym p q : peq p q = peq q p.
Proof. destruct (peq q p) eqn:E; [apply peq_true in E; subst; apply peq_refl|]. apply peq_false in E. apply peq_false. congruence. Qed.

(** Each entry is in the bucket of its point. *)
Definition gm_ok (gm : gmap) : Prop :=
  (0 < length gm)%nat /\ forall i b e, znth gm i = Some b -> In e b -> hashable (fst e) /\ idx (length gm) (fst e) = i.

Lemma concat_zset {A} (t t' : list (list A)) i b b' : znth t i = Some b -> zset t i b' = Some t' ->
  exists r, Permutation (concat t) (b ++ r) /\ Permutation (concat t') (b' ++ r).
Proof.
  intros E S. unfold zset in S. rewrite E in S. injection S as <-. apply znth_Some in E. destruct E as [_ E].
  revert E. generalize (Z.to_nat i) as n. clear i. induction t as [|x t IH]; intros n E; [destruct n; discriminate|].
  destruct n; cbn in E.
  - injection E as ->. exists (concat t). cbn. auto.
  - destruct (IH n E) as (r & P1 & P2). exists (x ++ r). cbn [set_nth concat]. rewrite P1, P2. split.
    + rewrite Permutation_app_swap_app. reflexivity.
    + rewrite Permutation_app_swap_app. reflexivity.
Qed.

Lemma new_gm_ok n : 0 < n -> exists gm, new_polygon_map n = Some gm /\ gm_ok gm /\ concat gm = [] /\ Z.of_nat (length gm) = n.
Proof.
  intros H. exists (repeat [] (Z.to_nat n)). unfold new_polygon_map. destruct (Z.ltb_spec n 0); [lia|]. split; [reflexivity|].
  split; [split|split].
  - rewrite repeat_length. lia.
  - intros i b e E I. apply znth_In, repeat_spec in E. subst b. destruct I.
  - clear. induction (Z.to_nat n); cbn; auto.
  - rewrite repeat_length. lia.
Qed.

Lemma gm_update gm p b b' : gm_ok gm -> hashable p -> znth gm (idx (length gm) p) = Some b ->
  (forall e, In e b' -> In e b \/ fst e = p) ->
  exists gm', zset gm (idx (length gm) p) b' = Some gm' /\ gm_ok gm' /\ length gm' = length gm.
Proof.
  intros [L O] Hp E H. destruct (zset_spec gm (idx (length gm) p) b') as (gm' & Eg & Lg & Q); [now apply idx_range|].
  exists gm'. split; [exact Eg|]. split; [|exact Lg]. split; [lia|]. intros i c e. rewrite Q, Lg.
  destruct (Z.eqb_spec (idx (length gm) p) i) as [<-|N]; [|apply O].
  intros [= <-] I. destruct (H e I) as [I2|E2]; [eapply O; eauto|]. rewrite E2. auto.
Qed.

Lemma add_polygon_ok gm p poly : gm_ok gm -> hashable p ->
  exists gm', add_polygon gm p poly = Some gm' /\ gm_ok gm' /\ length gm' = length gm /\ Permutation (concat gm') ((p, poly) :: concat gm).
Proof.
  intros O Hp. destruct (bucket_eq gm p (proj1 O) Hp) as (b & Eb & Ebk). unfold add_polygon. rewrite Ebk.
  destruct (gm_update gm p b (b ++ [(p, poly)]) O Hp Eb) as (gm' & E & O' & L).
  { intros e I. apply in_app_or in I. destruct I as [I|[<-|[]]]; auto. }
  exists gm'. split; [exact E|]. split; [exact O'|]. split; [exact L|].
  destruct (concat_zset _ _ _ _ _ Eb E) as (r & P1 & P2). rewrite P1, P2.
  change ((p, poly) :: b ++ r) with ([(p, poly)] ++ b ++ r). rewrite app_assoc. apply Permutation_app_tail, Permutation_app_comm.
Qed.

Lemma remove_polygon_ok gm p : gm_ok gm -> hashable p ->
  match remove_polygon gm p with
  | None => forall e, In e (concat gm) -> fst e <> p
  | Some gm' => gm_ok gm' /\ length gm' = length gm /\ exists poly, Permutation ((p, poly) :: concat gm') (concat gm)
  end.
Proof.
  intros O Hp. destruct (bucket_eq gm p (proj1 O) Hp) as (b & Eb & Ebk). unfold remove_polygon. rewrite Ebk.
  destruct (find_index (fun e => peq (fst e) p) b) as [k|] eqn:FI.
  - apply find_index_Some in FI. destruct FI as ((q & poly) & En & Et & _). cbn in Et. apply peq_true in Et. subst q.
    pose proof (swap_delete_perm _ _ _ En) as P.
    destruct (gm_update gm p b (swap_delete k b) O Hp Eb) as (gm' & E & O' & L).
    { intros e I. left. eapply Permutation_in; [exact P|right; exact I]. }
    rewrite E. split; [exact O'|]. split; [exact L|]. exists poly.
    destruct (concat_zset _ _ _ _ _ Eb E) as (r & P1 & P2). rewrite P1, P2. change (Permutation (((p, poly) :: swap_delete k b) ++ r) (b ++ r)). apply Permutation_app_tail, P.
  - intros e I Ep. apply concat_In_znth in I. destruct I as (i & c & Ec & I).
    destruct (proj2 O i c e Ec I) as [_ Hi]. rewrite <- Hi, Ep in Ec.
    rewrite Eb in Ec. injection Ec as <-.
    pose proof (find_index_None _ _ FI e I) as X. cbn in X. rewrite Ep, peq_refl in X. discriminate.
Qed.
