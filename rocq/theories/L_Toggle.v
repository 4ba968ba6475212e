(** addEdge keeps the edges that occur an odd number of times; for a cavity in a
    tiling these are its boundary edges. *)
From Coq Require Import ZArith List Bool Lia Permutation.
From Verif Require Import GoNum M_Norm M_Slice M_Geom M_Image M_Raster S_Raster M_Delaunay S_Delaunay L_Raster1 L_Raster6 L_PMap L_GMap L_Plane L_BW.
Import ListNotations.
Open Scope Z_scope.

Lemma edge_eq_eqb e f : edge_eq e f = edge_eqb e f. Proof. reflexivity. Qed.

Lemma new_edge_or a b : new_edge a b = (a, b) \/ new_edge a b = (b, a).
Proof. unfold new_edge. destruct (px a >? px b); [auto|]. destruct (px a =? px b); [destruct (py a >? py b)|]; auto. Qed.
Lemma new_edge_sym a b : new_edge a b = new_edge b a.
Proof.
  unfold new_edge. rewrite !Z.gtb_ltb. destruct (Z.ltb_spec (px b) (px a)), (Z.ltb_spec (px a) (px b)), (Z.eqb_spec (px a) (px b)), (Z.eqb_spec (px b) (px a)); try lia; auto.
  destruct (Z.ltb_spec (py b) (py a)), (Z.ltb_spec (py a) (py b)); try lia; auto.
  assert (a = b) as -> by (apply point_ext'; lia). reflexivity.
Qed.
Definition norm_edge (e : point * point) : edge := new_edge (fst e) (snd e).
Lemma norm_new a b : norm_edge (new_edge a b) = new_edge a b.
Proof. unfold norm_edge. destruct (new_edge_or a b) as [E|E]; rewrite E; cbn; [exact E|]. rewrite new_edge_sym. exact E. Qed.
Lemma norm_swap a b : norm_edge (b, a) = norm_edge (a, b). Proof. apply new_edge_sym. Qed.
Lemma norm_inv e a b : norm_edge e = new_edge a b -> e = (a, b) \/ e = (b, a).
Proof.
  destruct e as [c d]. unfold norm_edge. cbn. intros H. destruct (new_edge_or a b) as [E|E], (new_edge_or c d) as [F|F]; rewrite E, F in H; injection H as -> ->; auto.
Qed.

Lemma add_edge_ok es f : NoDup es -> NoDup (add_edge es f) /\ forall e, In e (add_edge es f) <-> (e = f /\ ~ In f es) \/ (e <> f /\ In e es).
Proof.
  intros ND. unfold add_edge. destruct (find_index (edge_eq f) es) as [k|] eqn:E.
  - apply find_index_Some in E. destruct E as (a & En & Ea & _). rewrite edge_eq_eqb in Ea. apply edge_eqb_eq in Ea. subst a.
    pose proof (swap_delete_perm _ _ _ En) as P. assert (ND2 : NoDup (f :: swap_delete k es)) by (eapply Permutation_NoDup; [apply Permutation_sym, P|exact ND]).
    inversion ND2; subst. split; [assumption|]. intros e. split.
    + intros I. right. split; [intros ->; contradiction|]. eapply Permutation_in; [exact P|right; exact I].
    + intros [[-> N]|[N I]]; [exfalso; apply N; eapply nth_error_In; eauto|].
      eapply Permutation_in in I; [|apply Permutation_sym, P]. destruct I; [congruence|assumption].
  - assert (N : ~ In f es) by (intros I; pose proof (find_index_None _ _ E f I) as X; rewrite edge_eq_eqb, edge_eqb_refl in X; discriminate).
    split.
    + apply NoDup_app_iff_local; [exact ND|constructor; [intros []|constructor]|]. intros e I [<-|[]]. contradiction.
    + intros e. rewrite in_app_iff. cbn [In]. split.
      * intros [I|[<-|[]]]; [right; split; [intros ->; contradiction|exact I]|left; auto].
      * intros [[-> _]|[_ I]]; auto.
Qed.

Lemma toggles L : forall es, NoDup es -> NoDup (fold_left add_edge L es) /\
  forall e, In e (fold_left add_edge L es) <-> (if Z.odd (count (edge_eqb e) L) then ~ In e es else In e es).
Proof.
  induction L as [|f L IH]; intros es ND; cbn [fold_left]; [split; [exact ND|intros; cbn; reflexivity]|].
  destruct (add_edge_ok es f ND) as [ND1 I1]. destruct (IH _ ND1) as [ND2 I2]. split; [exact ND2|]. intros e. rewrite I2, count_cons.
  destruct (edge_eqb e f) eqn:Ef; cbn [b2z].
  - apply edge_eqb_eq in Ef. subst f. rewrite Z.add_comm, Z.odd_add. change (Z.odd 1) with true. rewrite xorb_true_r.
    pose proof (I1 e). destruct (edge_in_dec e es); destruct (Z.odd (count (edge_eqb e) L)); cbn [negb]; tauto.
  - assert (e <> f) by (intros ->; rewrite edge_eqb_refl in Ef; discriminate). rewrite Z.add_0_l. pose proof (I1 e).
    destruct (edge_in_dec e es); destruct (Z.odd (count (edge_eqb e) L)); cbn [negb]; tauto.
Qed.

(** Undirected occurrences are directed ones in either direction. *)
Lemma count_norm a b L : a <> b -> count (edge_eqb (new_edge a b)) (map norm_edge L) = count (edge_eqb (a, b)) L + count (edge_eqb (b, a)) L.
Proof.
  intros N. induction L as [|e L IH]; [reflexivity|]. cbn [map]. rewrite !count_cons, IH.
  enough (b2z (edge_eqb (new_edge a b) (norm_edge e)) = b2z (edge_eqb (a, b) e) + b2z (edge_eqb (b, a) e)) by lia.
  destruct (edge_eqb (a, b) e) eqn:E1.
  - apply edge_eqb_eq in E1. subst e. rewrite (edge_eqb_neq (b, a) (a, b)) by congruence. unfold norm_edge. cbn. rewrite edge_eqb_refl. reflexivity.
  - destruct (edge_eqb (b, a) e) eqn:E2.
    + apply edge_eqb_eq in E2. subst e. unfold norm_edge. cbn [fst snd]. rewrite (new_edge_sym b a), edge_eqb_refl. reflexivity.
    + rewrite edge_eqb_neq; [reflexivity|]. intros H. symmetry in H. destruct (norm_inv _ _ _ H); subst e; rewrite edge_eqb_refl in *; discriminate.
Qed.

(** The counter-clockwise version of a stored triangle. *)
Definition ccw (t : dtri) : tri :=
  if orient (d_a t) (d_b t) (d_c t) <? 0 then Tri (d_b t) (d_a t) (d_c t) else Tri (d_a t) (d_b t) (d_c t).

Lemma add_tri_edges_count t e : count (edge_eqb e) [new_edge (d_a t) (d_b t); new_edge (d_b t) (d_c t); new_edge (d_c t) (d_a t)] =
  count (edge_eqb e) (map norm_edge (tedges (ccw t))).
Proof.
  unfold ccw. destruct (_ <? 0); unfold tedges; cbn [ta tb tc map]; unfold norm_edge; cbn [fst snd]; rewrite !count_cons; [|lia].
  rewrite (new_edge_sym (d_b t) (d_a t)), (new_edge_sym (d_a t) (d_c t)), (new_edge_sym (d_c t) (d_b t)). lia.
Qed.

Lemma fold_tri_edges R : forall es, fold_left add_tri_edges R es =
  fold_left add_edge (flat_map (fun t => [new_edge (d_a t) (d_b t); new_edge (d_b t) (d_c t); new_edge (d_c t) (d_a t)]) R) es.
Proof. induction R as [|t R IH]; intros es; cbn [fold_left flat_map]; [reflexivity|]. rewrite IH, fold_left_app. reflexivity. Qed.
Lemma count_tri_edges R e : count (edge_eqb e) (flat_map (fun t => [new_edge (d_a t) (d_b t); new_edge (d_b t) (d_c t); new_edge (d_c t) (d_a t)]) R) =
  count (edge_eqb e) (map norm_edge (flat_map tedges (map ccw R))).
Proof. induction R as [|t R IH]; [reflexivity|]. cbn [flat_map map]. rewrite map_app, !count_app, IH, add_tri_edges_count. reflexivity. Qed.

(** The direction of a boundary edge of B. *)
Definition dir (B : list tri) (e : edge) : point * point :=
  if edge_in_dec e (flat_map tedges B) then e else (snd e, fst e).

Lemma cavity_edges (R : list dtri) : let B := map ccw R in let es := fold_left add_tri_edges R [] in
  Forall pos B -> (forall a b, count (edge_eqb (a, b)) (flat_map tedges B) <= 1) ->
  NoDup (map (dir B) es) /\
  (forall a b, In (a, b) (map (dir B) es) <-> In (a, b) (flat_map tedges B) /\ ~ In (b, a) (flat_map tedges B)).
Proof.
  intros B es PB ON. set (L := flat_map tedges B) in *.
  pose proof (toggles (flat_map (fun t => [new_edge (d_a t) (d_b t); new_edge (d_b t) (d_c t); new_edge (d_c t) (d_a t)]) R) [] (NoDup_nil _)) as [ND IN].
  rewrite <- fold_tri_edges in ND, IN. fold es in ND, IN.
  assert (IN' : forall e, In e es <-> Z.odd (count (edge_eqb e) (map norm_edge L)) = true).
  { intros e. rewrite IN, count_tri_edges. fold B L. destruct (Z.odd _); split; auto; discriminate. }
  assert (NE : forall a b, In (a, b) L -> a <> b).
  { intros a b I. apply in_flat_map in I. destruct I as (t & It & I). destruct (edge_apex _ _ _ I) as (c & Ec).
    pose proof (rot_pos3 _ _ _ _ Ec (proj1 (Forall_forall _ _) PB t It)) as O. apply pos_distinct in O. tauto. }
  assert (NORM : forall e, In e es -> norm_edge e = e /\ (In e L \/ In (snd e, fst e) L)).
  { intros e I. apply IN' in I. assert (C : 0 < count (edge_eqb e) (map norm_edge L)).
    { pose proof (count_nonneg (edge_eqb e) (map norm_edge L)). destruct (Z.eq_dec (count (edge_eqb e) (map norm_edge L)) 0) as [Q|]; [rewrite Q in I; discriminate|lia]. }
    apply count_pos_in, in_map_iff in C. destruct C as ([a b] & <- & J). split; [apply norm_new|].
    unfold norm_edge. cbn [fst snd]. destruct (new_edge_or a b) as [Q|Q]; rewrite Q; cbn; auto. }
  assert (CNT : forall a b, a <> b -> (In (new_edge a b) es <-> (In (a, b) L /\ ~ In (b, a) L) \/ (In (b, a) L /\ ~ In (a, b) L))).
  { intros a b N. rewrite IN', count_norm by exact N.
    destruct (edge_in_dec (a, b) L) as [I|I], (edge_in_dec (b, a) L) as [J|J].
    - pose proof (in_count _ _ I). pose proof (in_count _ _ J). pose proof (ON a b). pose proof (ON b a).
      replace (count (edge_eqb (a, b)) L + count (edge_eqb (b, a)) L) with 2 by lia. cbn. intuition congruence.
    - pose proof (in_count _ _ I). pose proof (ON a b). rewrite (not_in_count (b, a) L J). replace (count (edge_eqb (a, b)) L + 0) with 1 by lia. cbn. tauto.
    - pose proof (in_count _ _ J). pose proof (ON b a). rewrite (not_in_count (a, b) L I). replace (0 + count (edge_eqb (b, a)) L) with 1 by lia. cbn. tauto.
    - rewrite (not_in_count (a, b) L I), (not_in_count (b, a) L J). cbn. intuition congruence. }
  assert (DN : forall e, In e es -> norm_edge (dir B e) = e).
  { intros e I. destruct (NORM e I) as [Q _]. unfold dir. destruct (edge_in_dec e _); [exact Q|]. rewrite norm_swap. destruct e; exact Q. }
  split.
  - assert (Inj : forall l, NoDup l -> (forall e, In e l -> norm_edge (dir B e) = e) -> NoDup (map (dir B) l)).
    { clear. induction 1 as [|e l N ND IH]; intros H; cbn; [constructor|]. constructor; [|apply IH; intros; apply H; now right].
      intros I. apply in_map_iff in I. destruct I as (f & Ef & If). apply N. rewrite <- (H e (or_introl eq_refl)), <- Ef, (H f (or_intror If)). exact If. }
    apply Inj; assumption.
  - intros a b. split.
    + intros I. apply in_map_iff in I. destruct I as ([c d] & Ed & I). pose proof (NORM _ I) as [Q1 Q2]. unfold dir in Ed.
      cbn [fst snd] in *.
      assert (N : c <> d) by (destruct Q2 as [Q2|Q2]; apply NE in Q2; congruence).
      assert (Q : In (new_edge c d) es) by (unfold norm_edge in Q1; cbn in Q1; rewrite Q1; exact I).
      apply CNT in Q; [|exact N]. fold L in Ed. destruct (edge_in_dec (c, d) L); injection Ed as <- <-; tauto.
    + intros [I J]. pose proof (NE a b I) as N. assert (Q : In (new_edge a b) es) by (apply CNT; auto).
      apply in_map_iff. exists (new_edge a b). split; [|exact Q]. unfold dir. fold L.
      destruct (new_edge_or a b) as [E|E]; rewrite E; cbn [fst snd].
      * destruct (edge_in_dec (a, b) L); [reflexivity|contradiction].
      * destruct (edge_in_dec (b, a) L); [contradiction|reflexivity].
Qed.
