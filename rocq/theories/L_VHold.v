(** The diagrams kept by the polygon fitness functions are Voronoi diagrams of the points
    evaluated (C68). *)
From Coq Require Import ZArith Reals List Bool Arith Lia Lra Permutation.
From Flocq Require Import Core IEEE754.BinarySingleNaN.
From Verif Require Import GoNum M_Norm M_Slice M_Geom S_Geom M_Image S_Image M_Raster S_Raster M_Delaunay S_Delaunay S_Remove M_Algo M_Fitness S_Fitness S_Norm FloatLemmas
  L_Slice L_Geom L_PMap L_Super L_Slots L_Slots2 L_Plane L_BW L_Insert L_Lookup L_Score L_Remove L_Reach L_Hold L_Tri L_Tiles P_Delaunay P_Remove P_Fitness L_Run2
  M_Voronoi S_Voronoi L_GMap L_IVor P_Voronoi M_Polygons S_Polygons L_Poly.
Import ListNotations.
Open Scope Z_scope.

(** The same diagram, apart from the counters of the triangulation. *)
Definition vlike (v u : ivor) : Prop := alike (v_d v) (v_d u) /\ v_w v = v_w u /\ v_h v = v_h u /\ v_map v = v_map u.
Definition both {A} (R : A -> A -> Prop) (a b : option A) : Prop :=
  match a, b with Some x, Some y => R x y | None, None => True | _, _ => False end.

Lemma vlike_sym v u : vlike v u -> vlike u v.
Proof. intros (A & B & C & D). split; [apply alike_sym, A|auto]. Qed.
Lemma insert_both d e p : alike d e -> both alike (insert d p) (insert e p).
Proof.
  intros A. destruct (insert d p) as [d'|] eqn:E.
  - destruct (insert_alike _ _ _ _ A E) as (e' & E' & A'). rewrite E'. exact A'.
  - destruct (insert e p) as [e'|] eqn:E'; [|exact I]. destruct (insert_alike _ _ _ _ (alike_sym _ _ A) E') as (x & Ex & _). congruence.
Qed.
Lemma remove_both s d e p : alike d e -> both alike (remove s d p) (remove s e p).
Proof.
  intros A. destruct (remove s d p) as [d'|] eqn:E.
  - destruct (remove_alike _ _ _ _ _ A E) as (e' & E' & A'). rewrite E'. exact A'.
  - destruct (remove s e p) as [e'|] eqn:E'; [|exact I]. destruct (remove_alike _ _ _ _ _ (alike_sym _ _ A) E') as (x & Ex & _). congruence.
Qed.
Lemma process_alike srt w h d e : alike d e -> forall gm p, process_point srt w h d gm p = process_point srt w h e gm p.
Proof. intros (A & B & _) gm p. unfold process_point, cell_of, centres. rewrite A, B. reflexivity. Qed.
Lemma foldM_ext2 {A B} (f g : B -> A -> option B) l : (forall b a, f b a = g b a) -> forall b, foldM f l b = foldM g l b.
Proof. intros H. induction l as [|a l IH]; intros b; cbn [foldM]; [reflexivity|]. rewrite H. destruct (g b a); auto. Qed.

Lemma iv_insert_both srt v u p : vlike v u -> both vlike (iv_insert srt v p) (iv_insert srt u p).
Proof.
  intros ((A1 & A2 & A3 & A4 & A5) & B & C & D). unfold iv_insert. rewrite A1, A2, A3, A5, B, C, D.
  assert (AL : alike (v_d v) (v_d u)) by (repeat split; assumption). pose proof (insert_both _ _ p AL) as I.
  destruct (copies_of (d_pmap (v_d u)) p) as [c|]; [|exact Logic.I]. destruct (0 <? c).
  - destruct (insert (v_d v) p), (insert (v_d u) p); cbn in *; auto. repeat split; cbn; auto; apply I.
  - destruct (iter_circles_containing _ p _) as [l|]; [|exact Logic.I]. destruct (foldM _ l []) as [upd|]; [|exact Logic.I].
    destruct (insert (v_d v) p) as [d|], (insert (v_d u) p) as [e|]; cbn [both] in I; try contradiction; [|exact Logic.I].
    destruct (foldM remove_polygon upd (v_map u)) as [gm|]; [|exact Logic.I]. destruct I as (I1 & I2 & I3 & I4 & I5). rewrite I5.
    rewrite (foldM_ext2 _ _ _ (process_alike srt (v_w u) (v_h u) d e ltac:(repeat split; assumption))). destruct (foldM _ _ gm) as [gm'|]; cbn; [|exact Logic.I]. repeat split; auto.
Qed.
Lemma iv_remove_both srt hsrt v u p : vlike v u -> both vlike (iv_remove srt hsrt v p) (iv_remove srt hsrt u p).
Proof.
  intros ((A1 & A2 & A3 & A4 & A5) & B & C & D). unfold iv_remove. rewrite A1, A2, A3, A5, B, C, D.
  assert (AL : alike (v_d v) (v_d u)) by (repeat split; assumption). pose proof (remove_both (hsrt p) _ _ p AL) as I.
  destruct (copies_of (d_pmap (v_d u)) p) as [c|]; [|exact Logic.I]. destruct (1 <? c).
  - destruct (remove (hsrt p) (v_d v) p), (remove (hsrt p) (v_d u) p); cbn in *; auto. repeat split; cbn; auto; apply I.
  - destruct (iter_with_vertex _ p _) as [l|]; [|exact Logic.I]. destruct (foldM _ l []) as [upd|]; [|exact Logic.I].
    destruct (remove (hsrt p) (v_d v) p) as [d|], (remove (hsrt p) (v_d u) p) as [e|]; cbn [both] in I; try contradiction; [|exact Logic.I].
    destruct (foldM remove_polygon upd (v_map u)) as [gm|]; [|exact Logic.I]. destruct I as (I1 & I2 & I3 & I4 & I5).
    rewrite (foldM_ext2 _ _ _ (process_alike srt (v_w u) (v_h u) d e ltac:(repeat split; assumption))). destruct (foldM _ _ gm) as [gm'|]; cbn; [|exact Logic.I]. repeat split; auto.
Qed.

(** The number of buckets stays. *)
Lemma add_polygon_len gm p poly gm' : add_polygon gm p poly = Some gm' -> length gm' = length gm.
Proof. unfold add_polygon. destruct (bucket gm p) as [[i b]|]; [|discriminate]. apply zset_length. Qed.
Lemma remove_polygon_len gm p gm' : remove_polygon gm p = Some gm' -> length gm' = length gm.
Proof. unfold remove_polygon. destruct (bucket gm p) as [[i b]|]; [|discriminate]. destruct (find_index (fun e => peq (fst e) p) b); [|discriminate]. apply zset_length. Qed.
Lemma foldM_len {A B} (f : list B -> A -> option (list B)) l : (forall b a b', f b a = Some b' -> length b' = length b) -> forall b b', foldM f l b = Some b' -> length b' = length b.
Proof.
  intros H. induction l as [|a l IH]; intros b b'; cbn [foldM]; [intros [= <-]; reflexivity|]. destruct (f b a) as [b1|] eqn:E; [|discriminate].
  intros K. rewrite (IH _ _ K). eapply H; eauto.
Qed.
Lemma process_len srt w h d gm p gm' : process_point srt w h d gm p = Some gm' -> length gm' = length gm.
Proof. unfold process_point. destruct (cell_of srt d w h p); [|discriminate]. apply add_polygon_len. Qed.
Lemma iv_insert_len srt v p v' : iv_insert srt v p = Some v' -> length (v_map v') = length (v_map v).
Proof.
  unfold iv_insert. destruct (copies_of _ p) as [c|]; [|discriminate]. destruct (0 <? c).
  - destruct (insert (v_d v) p); [|discriminate]. intros [= <-]. reflexivity.
  - destruct (iter_circles_containing _ p _) as [l|]; [|discriminate]. destruct (foldM _ l []) as [upd|]; [|discriminate]. destruct (insert (v_d v) p) as [d|]; [|discriminate].
    destruct (foldM remove_polygon upd (v_map v)) as [gm|] eqn:E; [|discriminate]. destruct (foldM _ _ gm) as [gm'|] eqn:E'; [|discriminate]. intros [= <-]. cbn [v_map].
    rewrite (foldM_len _ _ (process_len _ _ _ _) _ _ E'). apply (foldM_len _ _ remove_polygon_len _ _ E).
Qed.
Lemma iv_remove_len srt hsrt v p v' : iv_remove srt hsrt v p = Some v' -> length (v_map v') = length (v_map v).
Proof.
  unfold iv_remove. destruct (copies_of _ p) as [c|]; [|discriminate]. destruct (1 <? c).
  - destruct (remove _ (v_d v) p); [|discriminate]. intros [= <-]. reflexivity.
  - destruct (iter_with_vertex _ p _) as [l|]; [|discriminate]. destruct (foldM _ l []) as [upd|]; [|discriminate]. destruct (remove _ (v_d v) p) as [d|]; [|discriminate].
    destruct (foldM remove_polygon upd (v_map v)) as [gm|] eqn:E; [|discriminate]. destruct (foldM _ _ gm) as [gm'|] eqn:E'; [|discriminate]. intros [= <-]. cbn [v_map].
    rewrite (foldM_len _ _ (process_len _ _ _ _) _ _ E'). apply (foldM_len _ _ remove_polygon_len _ _ E).
Qed.

Lemma new_voronoi_len w h v : new_voronoi w h = Some v -> Z.of_nat (length (v_map v)) = 6.
Proof.
  unfold new_voronoi. destruct (new_delaunay w h) as [d|]; [|discriminate]. destruct (new_gm_ok 6 ltac:(lia)) as (gm & Eg & _ & _ & Lg). rewrite Eg. intros [= <-]. exact Lg.
Qed.

Section Vor.
Context (im : fimg) (srt : sorter) (hsrt : point -> list point -> option (list point)) (l : nat).
Hypothesis Hsrt : sorter_ok srt.
Hypothesis Hsize : usual_size (fi_w im) (fi_h im).
Hypothesis Hperm : forall p q q', hsrt p q = Some q' -> Permutation q q'.
Hypothesis Hsort : sorts_hulls hsrt.
Hypothesis Hl : Z.of_nat l <= 32765.
Notation w := (fi_w im). Notation h := (fi_h im). Notation mp := (mut_point im).
Let SS : small_size w h := ssize im Hsize.
Let SK : size_ok w h := sok im Hsize.

Definition vtracks (P : list point) (v u : ivor) : Prop :=
  built w h P (v_d u) /\ iv_ok srt w h P u /\ vlike v u /\ Z.of_nat (length (v_map u)) = 6.
Definition vor_of (pts : list npoint) (v : ivor) : Prop := exists P u, vtracks P v u /\ Permutation P (map mp pts).
(** A panic, and what it is due to: a cell of some of the points whose vertices cannot be
    compared. *)
Definition vpanic (P : list point) : Prop := exists Q q, (forall p, In p Q -> In p P) /\ In q Q /\ stuck srt w h Q q.

Lemma insert_vtracks P v u p : vtracks P v u -> in_image w h p -> Z.of_nat (length P) < 32765 ->
  match iv_insert srt v p with
  | None => vpanic (p :: P)
  | Some v' => exists u', vtracks (p :: P) v' u'
  end.
Proof.
  intros (B & O & A & N) Hp L. destruct (iv_insert_ok srt w h P u p SS O Hp L) as (d' & E & K). pose proof (iv_insert_both srt v u p A) as Bo.
  destruct (iv_insert srt u p) as [u'|] eqn:Eu; destruct (iv_insert srt v p) as [v'|] eqn:Ev; cbn [both] in Bo; try contradiction.
  - destruct K as [K1 K2]. exists u'. split; [|split; [exact K1|split; [exact Bo|]]].
    + rewrite K2. pose proof (mult_length l P p) as M. eapply built_insert; [exact B|exact Hp|lia|exact E].
    + rewrite (iv_insert_len _ _ _ _ Eu). exact N.
  - destruct K as (q & I & St). exists (p :: P), q. auto.
Qed.
Lemma remove_vtracks P v u p P' : vtracks P v u -> take_out p P = Some P' -> Z.of_nat (length P) <= 32765 ->
  match iv_remove srt hsrt v p with
  | None => vpanic P'
  | Some v' => exists u', vtracks P' v' u'
  end.
Proof.
  intros (B & O & A & N) T L. pose proof (take_out_spec _ _ _ T) as TP.
  assert (Hp : in_image w h p) by (apply (ds_in _ _ _ _ (io_d _ _ _ _ _ O)); eapply Permutation_in; [exact TP|left; reflexivity]).
  destruct (iv_remove_ok srt hsrt w h P u p P' SS O T (Hsort p) L) as (d' & E & K). pose proof (iv_remove_both srt hsrt v u p A) as Bo.
  destruct (iv_remove srt hsrt u p) as [u'|] eqn:Eu; destruct (iv_remove srt hsrt v p) as [v'|] eqn:Ev; cbn [both] in Bo; try contradiction.
  - destruct K as [K1 K2]. exists u'. split; [|split; [exact K1|split; [exact Bo|]]].
    + rewrite K2. eapply built_remove; [exact B|exact Hp|exact T|apply Hperm|exact E].
    + rewrite (iv_remove_len _ _ _ _ _ Eu). exact N.
  - destruct K as (q & I & St). exists P', q. auto.
Qed.
Lemma vpanic_incl P P' : (forall p, In p P -> In p P') -> vpanic P -> vpanic P'.
Proof. intros H (Q & q & A & B & C). exists Q, q. split; [intros p I; apply H, A, I|auto]. Qed.

Lemma inserts_vtracks {A} (f : A -> point) pts : forall P v u, vtracks P v u -> Forall (fun a => in_image w h (f a)) pts -> Z.of_nat (length P + length pts) <= 32765 ->
  match foldM (fun v a => iv_insert srt v (f a)) pts v with
  | None => vpanic (P ++ map f pts)
  | Some v' => exists P' u', vtracks P' v' u' /\ Permutation P' (P ++ map f pts)
  end.
Proof.
  induction pts as [|a pts IH]; intros P v u K F L; cbn [foldM map].
  - exists P, u. rewrite app_nil_r. auto.
  - inversion F as [|x y F1 F2]; subst x y. cbn [length] in L. pose proof (insert_vtracks P v u (f a) K F1 ltac:(lia)) as K1.
    assert (Pq : Permutation (f a :: P ++ map f pts) (P ++ f a :: map f pts)) by apply Permutation_middle.
    destruct (iv_insert srt v (f a)) as [v1|].
    + destruct K1 as (u1 & K1). pose proof (IH (f a :: P) v1 u1 K1 F2 ltac:(cbn [length]; lia)) as K2. destruct (foldM _ pts v1) as [v'|].
      * destruct K2 as (P' & u' & K2 & Pm). exists P', u'. split; [exact K2|]. rewrite Pm. exact Pq.
      * eapply vpanic_incl; [|exact K2]. intros p I. eapply Permutation_in; [exact Pq|exact I].
    + eapply vpanic_incl; [|exact K1]. intros p I. eapply Permutation_in; [exact Pq|]. destruct I as [->|I]; [left; reflexivity|right; apply in_or_app; auto].
Qed.
Lemma removes_vtracks {A} (f : A -> point) ms : forall P rest v u, vtracks P v u -> Permutation P (map f ms ++ rest) -> Z.of_nat (length P) <= 32765 ->
  match foldM (fun v a => iv_remove srt hsrt v (f a)) ms v with
  | None => vpanic P
  | Some v' => exists P' u', vtracks P' v' u' /\ Permutation P' rest
  end.
Proof.
  induction ms as [|a ms IH]; intros P rest v u K Pm L; cbn [foldM map].
  - exists P, u. auto.
  - destruct (take_out_In (f a) P) as (P' & T). { eapply Permutation_in; [apply Permutation_sym, Pm|left; reflexivity]. }
    pose proof (remove_vtracks P v u (f a) P' K T L) as K1. apply take_out_spec in T.
    assert (IN : forall p, In p P' -> In p P) by (intros p I; eapply Permutation_in; [exact T|right; exact I]).
    destruct (iv_remove srt hsrt v (f a)) as [v1|].
    + destruct K1 as (u1 & K1). assert (X1 : Permutation P' (map f ms ++ rest)) by (apply (Permutation_cons_inv (a := f a)); rewrite T; exact Pm).
      assert (X2 : Z.of_nat (length P') <= 32765) by (apply Permutation_length in T; cbn [length] in T; lia).
      pose proof (IH P' rest v1 u1 K1 X1 X2) as K2. destruct (foldM _ ms v1) as [v'|]; [exact K2|]. eapply vpanic_incl; [exact IN|exact K2].
    + eapply vpanic_incl; [exact IN|exact K1].
Qed.

Lemma vor_new_ex base pts log : okp l pts ->
  match next_vor im srt hsrt None base pts log with None => vpanic (map mp pts) | Some v => vor_of pts v end.
Proof.
  intros [L F]. unfold next_vor. destruct (new_iv_ok srt w h SS) as (v0 & E & O & Ed). rewrite E.
  assert (K : vtracks [] v0 v0).
  { split; [apply built_new, Ed|]. split; [exact O|]. split; [|apply (new_voronoi_len _ _ _ E)]. clear. generalize v0. intros v. repeat split. }
  clear E O Ed. revert K. generalize v0. clear v0. intros v0 K.
  pose proof (inserts_vtracks mp pts [] v0 v0 K ltac:(apply okp_image; [exact SK|exact F]) ltac:(cbn [length]; lia)) as K1.
  destruct (foldM _ pts v0) as [v'|]; [|exact K1]. destruct K1 as (P & u & K1 & Pm). exists P, u. auto.
Qed.
Lemma iv_set_like P1 v1 u1 P2 v2 u2 : vtracks P1 v1 u1 -> vtracks P2 v2 u2 -> exists v, iv_set v1 v2 = Some v /\ vtracks P2 v u2.
Proof.
  intros (B1 & O1 & (A1 & W1 & H1 & M1) & N1) (B2 & O2 & (A2 & W2 & H2 & M2) & N2). unfold iv_set.
  destruct (d_set_total _ _ _ _ _ _ _ _ B1 A1 B2 A2) as (d1 & E1). rewrite E1. pose proof (d_set_alike _ _ _ _ _ _ _ _ _ B1 A1 B2 A2 E1) as A3.
  rewrite table_set_same by (rewrite M1, M2; lia). eexists. split; [reflexivity|]. split; [exact B2|]. split; [exact O2|]. split; [|exact N2].
  split; [exact A3|]. cbn [v_w v_h v_map]. rewrite W1, H1, (io_w _ _ _ _ _ O1), (io_h _ _ _ _ _ O1), (io_w _ _ _ _ _ O2), (io_h _ _ _ _ _ O2). auto.
Qed.
Lemma vor_mod_ex q v q' o pts log : okp l q -> vor_of q v -> okp l q' -> vor_of q' o -> okp l pts -> swaps_out q' pts log ->
  match next_vor im srt hsrt (Some v) (Some o) pts log with None => vpanic (map mp q' ++ map mp pts) | Some v' => vor_of pts v' end.
Proof.
  intros [L1 F1] (P1 & u1 & K1 & Pm1) [L2 F2] (P2 & u2 & K2 & Pm2) [L3 F3] (rest & S1 & S2). unfold next_vor.
  destruct (iv_set_like _ _ _ _ _ _ K1 K2) as (v1 & E1 & K3). rewrite E1.
  assert (G2 : Forall (fun m => in_image w h (mp (m_new m))) log).
  { apply Forall_forall. intros m Hm. apply point_in_image; [exact SK|]. rewrite Forall_forall in F3. apply F3. eapply Permutation_in; [apply Permutation_sym, S2|]. apply in_or_app; left. apply in_map, Hm. }
  assert (Q1 : Permutation P2 (map (fun m => mp (m_old m)) log ++ map mp rest)) by (rewrite Pm2, S1, map_app, map_map; reflexivity).
  assert (LP : Z.of_nat (length P2) <= 32765) by (rewrite (Permutation_length Pm2), map_length; lia).
  pose proof (removes_vtracks (fun m => mp (m_old m)) log P2 (map mp rest) v1 u2 K3 Q1 LP) as K4.
  destruct (foldM _ log v1) as [v2|].
  - destruct K4 as (P3 & u3 & K4 & Q2).
    assert (Q3 : Permutation (map mp pts) (map (fun m => mp (m_new m)) log ++ map mp rest)) by (rewrite S2, map_app, map_map; reflexivity).
    assert (LL : Z.of_nat (length P3 + length log) <= 32765).
    { rewrite (Permutation_length Q2), map_length. apply Permutation_length in S2. rewrite app_length, map_length in S2. lia. }
    pose proof (inserts_vtracks (fun m => mp (m_new m)) log P3 v2 u3 K4 G2 LL) as K5.
    assert (Q4 : Permutation (P3 ++ map (fun m => mp (m_new m)) log) (map mp pts)) by (rewrite Q3, Q2; apply Permutation_app_comm).
    destruct (foldM _ log v2) as [v'|].
    + destruct K5 as (P4 & u4 & K5 & Q5). exists P4, u4. split; [exact K5|]. rewrite Q5. exact Q4.
    + eapply vpanic_incl; [|exact K5]. intros p I. apply in_or_app; right. eapply Permutation_in; [exact Q4|exact I].
  - eapply vpanic_incl; [|exact K4]. intros p I. apply in_or_app; left. eapply Permutation_in; [exact Pm2|exact I].
Qed.

Lemma vor_new base pts log d : okp l pts -> next_vor im srt hsrt None base pts log = Some d -> vor_of pts d.
Proof. intros Ok E. pose proof (vor_new_ex base pts log Ok) as K. rewrite E in K. exact K. Qed.
Lemma vor_keep d pts log : next_vor im srt hsrt (Some d) None pts log = Some d. Proof. reflexivity. Qed.
Lemma vor_mod q d q' o pts log d' : okp l q -> vor_of q d -> okp l q' -> vor_of q' o -> okp l pts -> swaps_out q' pts log ->
  next_vor im srt hsrt (Some d) (Some o) pts log = Some d' -> vor_of pts d'.
Proof. intros A B C D E F G. pose proof (vor_mod_ex q d q' o pts log A B C D E F) as K. rewrite G in K. exact K. Qed.

(** What such a diagram is. *)
Lemma vor_shown pts v : vor_of pts v -> exists Q qs cells, Permutation Q (map mp pts) /\ cell_per_point w h Q qs cells /\ iv_iter v = filter nonempty cells.
Proof.
  intros (P & u & (_ & [A1 A2 A3 A4 A5 A6 A7] & (_ & _ & _ & M) & _) & Pm). exists P, (keys (v_map u)), (map snd (concat (v_map u))). split; [exact Pm|]. split; [|unfold iv_iter; rewrite M; reflexivity].
  split; [exact A5|]. split; [exact A6|]. unfold keys in *. clear - A7 Hsrt Hsize. induction (concat (v_map u)) as [|[q poly] k IH]; cbn [map fst snd]; [constructor|].
  constructor; [eapply fresh_shows; eauto; apply A7; left; reflexivity|apply IH; intros x y I; apply A7; right; exact I].
Qed.
Lemma vor_framed pts v : vor_of pts v -> framed im v.
Proof.
  intros (P & u & (_ & [A1 A2 A3 A4 A5 A6 A7] & (_ & _ & _ & M) & _) & Pm) poly I. unfold iv_iter, gm_iter in I. rewrite M in I. apply filter_In in I as [I _].
  apply in_map_iff in I as ([q c] & E & I). cbn in E; subst c. eapply fresh_frame; eauto.
Qed.
End Vor.
