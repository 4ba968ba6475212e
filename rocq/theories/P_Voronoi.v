(** C52-C54 and C62-C64: Voronoi, Polygonate and IVoronoi. *)
From Coq Require Import ZArith Reals List Bool Arith Lia Lra Permutation.
From Flocq Require Import IEEE754.BinarySingleNaN.
From Verif Require Import GoNum FloatLemmas M_Norm S_Norm M_Slice M_Geom M_Image M_Raster M_Delaunay S_Delaunay S_Remove L_Image L_PMap L_Insert L_Score L_Remove M_Voronoi S_Voronoi L_Voronoi L_Centres L_IVor L_Voronoi2 P_Delaunay P_Remove.
Import ListNotations.
Open Scope Z_scope.

(** IVoronoi: NewVoronoi, then Insert and Remove in sequence. *)
Definition iv_step (srt : sorter) (hsrt : point -> list point -> option (list point)) (v : ivor) (o : mop) : option ivor :=
  match o with MAdd p => iv_insert srt v p | MRemove p => iv_remove srt hsrt v p end.
Definition iv_history (srt : sorter) (hsrt : point -> list point -> option (list point)) (w h : Z) (ops : list mop) : option ivor :=
  match new_voronoi w h with None => None | Some v => foldM (iv_step srt hsrt) ops v end.

(* ---------------------------------------------------------------- *)
(** * From computed cells to the specification *)
Lemma describes_fin S q cs : describes S q cs -> Forall fpfin cs.
Proof. intros [A _]. apply Forall_forall. intros c I. destruct (A c I) as (X & Y & M & _ & F1 & F2 & _). split; assumption. Qed.
Lemma usual_bounds w h : usual_size w h -> (0 <= w <= 1920 /\ 0 <= h <= 1920).
Proof. unfold usual_size. lia. Qed.

Lemma fresh_frame srt w h Q q poly : sorter_ok srt -> usual_size w h -> fresh srt w h Q q poly -> Forall (in_frame w h) poly.
Proof.
  intros SO S (cs & D & E). destruct (usual_bounds _ _ S) as [Hw Hh]. eapply cell_frame; [exact SO|exact Hw|exact Hh|eapply describes_fin; exact D|exact E].
Qed.
Lemma fresh_shows srt w h Q q poly : sorter_ok srt -> usual_size w h -> fresh srt w h Q q poly -> shows_cell w h (far_points w h ++ Q) q poly.
Proof.
  intros SO S (cs & D & E). destruct (usual_bounds _ _ S) as [Hw Hh]. pose proof (describes_fin _ _ _ D) as F. destruct (cell_vertices srt w h q cs poly SO Hw Hh F E) as [V1 V2].
  destruct D as [D1 D2]. constructor.
  - intros c I. destruct (V1 c I) as [[Ic _]|[B _]]; [left; apply D1, Ic|right; exact B].
  - intros X Y M VV L. destruct (D2 X Y M VV) as (c & Ic & A). destruct (V2 c Ic) as (c' & Ic' & N); [eapply in_image_inside; eauto; apply VV|].
    exists c'. split; [exact Ic'|]. rewrite Forall_forall in F.
    assert (F' : fpfin c').
    { destruct (V1 c' Ic') as [[J _]|[(B1 & B2 & _) _]]; [apply F, J|split; assumption]. }
    apply (npeq_R c' c F' (F c Ic)) in N. destruct N as [N1 N2]. destruct A as (A1 & A2 & A3 & A4). destruct F' as [F1 F2]. repeat split; [exact F1|exact F2|rewrite N1; exact A3|rewrite N2; exact A4].
  - intros ALL c I. destruct (V1 c I) as [[Ic _]|[_ (c' & Ic' & O)]]; [apply D1, Ic|]. exfalso. destruct (D1 c' Ic') as (X & Y & M & VV & A).
    assert (outside c' w h = false) by (eapply in_image_inside; eauto; apply VV). congruence.
Qed.
Lemma mapM_Forall2 {A B} (f : A -> option B) (R : A -> B -> Prop) l : forall bs, mapM f l = Some bs -> (forall a b, In a l -> f a = Some b -> R a b) -> Forall2 R l bs.
Proof.
  induction l as [|a l IH]; intros bs E H; cbn [mapM] in E; [injection E as <-; constructor|].
  destruct (f a) as [b|] eqn:Ea; [|discriminate]. destruct (mapM f l) as [bs'|] eqn:El; [|discriminate]. injection E as <-.
  constructor; [apply H; [left; reflexivity|exact Ea]|]. apply IH; [reflexivity|]. intros x y I. apply H. right. exact I.
Qed.

Lemma f2_length {A B} (R : A -> B -> Prop) l k : Forall2 R l k -> length l = length k.
Proof. induction 1; cbn; congruence. Qed.

Lemma voronoi_cells srt w h Q d l : sorter_ok srt -> usual_size w h -> dstate_ok w h Q d -> voronoi srt d w h = Some l ->
  exists cells, cell_per_point w h Q (pm_iter (d_pmap d)) cells /\ l = filter nonempty cells /\ forall poly, In poly cells -> Forall (in_frame w h) poly.
Proof.
  intros SO S O. unfold voronoi. destruct (mapM (cell_of srt d w h) (pm_iter (d_pmap d))) as [cells|] eqn:E; [|discriminate]. intros [= <-].
  pose proof (ds_pm _ _ _ _ O) as PM. assert (FR : forall q poly, In q (pm_iter (d_pmap d)) -> cell_of srt d w h q = Some poly -> fresh srt w h Q q poly).
  { intros q poly I. apply (cell_fresh srt w h Q d q poly (usual_small _ _ S) O). eapply pm_iter_In; eauto. }
  exists cells. split; [|split; [reflexivity|]].
  - split; [eapply pm_iter_NoDup; exact PM|]. split; [intros q; eapply pm_iter_In; exact PM|]. eapply mapM_Forall2; [exact E|]. intros q poly I Eq. eapply fresh_shows; eauto.
  - intros poly I. apply (mapM_In _ _ _ E) in I. destruct I as (q & Iq & Eq). eapply fresh_frame; eauto.
Qed.
Lemma voronoi_stuck srt w h Q d : usual_size w h -> dstate_ok w h Q d -> voronoi srt d w h = None -> exists q, In q Q /\ stuck srt w h Q q.
Proof.
  intros S O. unfold voronoi. pose proof (ds_pm _ _ _ _ O) as PM. destruct (mapM (cell_of srt d w h) (pm_iter (d_pmap d))) as [cells|] eqn:E; [discriminate|]. intros _.
  assert (X : exists q, In q (pm_iter (d_pmap d)) /\ cell_of srt d w h q = None).
  { revert E. generalize (pm_iter (d_pmap d)). induction l as [|q l IH]; cbn [mapM]; [discriminate|]. destruct (cell_of srt d w h q) as [poly|] eqn:Eq.
    - destruct (mapM (cell_of srt d w h) l); [discriminate|]. intros _. destruct (IH eq_refl) as (x & I & Ex). exists x. split; [right; exact I|exact Ex].
    - intros _. exists q. split; [left; reflexivity|exact Eq]. }
  destruct X as (q & I & Eq). assert (J : In q Q) by (eapply pm_iter_In; eauto). exists q. split; [exact J|]. eapply cell_stuck; eauto. apply usual_small, S.
Qed.

Lemma iv_from srt hsrt w h : usual_size w h -> sorts_hulls hsrt -> forall P ops Q, valid_ops w h P ops Q -> Z.of_nat (length P) <= 32765 -> forall v, iv_ok srt w h P v ->
  match foldM (iv_step srt hsrt) ops v with
  | Some v' => iv_ok srt w h Q v' /\ foldM (apply_op hsrt) ops (v_d v) = Some (v_d v')
  | None => exists ops1 ops2 Q1 q, ops = ops1 ++ ops2 /\ valid_ops w h P ops1 Q1 /\ In q Q1 /\ stuck srt w h Q1 q
  end.
Proof.
  intros S SO. apply usual_small in S. induction 1 as [P|P p ops Q Hp L V IH|P p P' ops Q T V IH]; intros LP v O; cbn [foldM iv_step apply_op].
  - auto.
  - destruct (iv_insert_ok srt w h P v p S O Hp L) as (d' & Ed & K). rewrite Ed. destruct (iv_insert srt v p) as [v'|].
    + destruct K as [O' Ev]. subst d'. specialize (IH ltac:(cbn [length]; lia) v' O'). destruct (foldM (iv_step srt hsrt) ops v'); [exact IH|].
      destruct IH as (ops1 & ops2 & Q1 & q & -> & V1 & Iq & St). exists (MAdd p :: ops1), ops2, Q1, q. split; [reflexivity|]. split; [constructor; assumption|]. auto.
    + destruct K as (q & Iq & St). exists [MAdd p], ops, (p :: P), q. split; [reflexivity|]. split; [constructor; [exact Hp|exact L|constructor]|]. auto.
  - destruct (iv_remove_ok srt hsrt w h P v p P' S O T (SO p) LP) as (d' & Ed & K). rewrite Ed. destruct (iv_remove srt hsrt v p) as [v'|].
    + destruct K as [O' Ev]. subst d'. assert (L' : Z.of_nat (length P') <= 32765).
      { pose proof (Permutation_length (take_out_spec _ _ _ T)) as PL. cbn [length] in PL. lia. }
      specialize (IH L' v' O'). destruct (foldM (iv_step srt hsrt) ops v'); [exact IH|].
      destruct IH as (ops1 & ops2 & Q1 & q & -> & V1 & Iq & St). exists (MRemove p :: ops1), ops2, Q1, q. split; [reflexivity|]. split; [econstructor; eassumption|]. auto.
    + destruct K as (q & Iq & St). exists [MRemove p], ops, P', q. split; [reflexivity|]. split; [econstructor; [exact T|constructor]|]. auto.
Qed.
Lemma iv_new srt hsrt w h ops Q : usual_size w h -> sorts_hulls hsrt -> valid_ops w h [] ops Q ->
  match iv_history srt hsrt w h ops with
  | Some v => iv_ok srt w h Q v /\ history hsrt w h ops = Some (v_d v)
  | None => exists ops1 ops2 Q1 q, ops = ops1 ++ ops2 /\ valid_ops w h [] ops1 Q1 /\ In q Q1 /\ stuck srt w h Q1 q
  end.
Proof.
  intros S SO V. destruct (new_iv_ok srt w h (usual_small _ _ S)) as (v & E & O & Ed). unfold iv_history. rewrite E. rewrite (history_eq hsrt w h ops _ Ed).
  apply (iv_from srt hsrt w h S SO [] ops Q V); [change (Z.of_nat (length (@nil point))) with 0; lia|exact O].
Qed.

(** The comparison of voronoi.go:133-159 panics on two different vertices of the cell
    of [q] ([c1] and [c2], rounded). *)
Definition comparison_panics (w h : Z) (Q : list point) (q : point) : Prop :=
  exists c1 c2 X1 Y1 M1 X2 Y2 M2,
    voronoi_vertex (far_points w h ++ Q) q X1 Y1 M1 /\ at_rounded c1 X1 Y1 M1 /\
    voronoi_vertex (far_points w h ++ Q) q X2 Y2 M2 /\ at_rounded c2 X2 Y2 M2 /\
    (B2R (nx c1) <> B2R (nx c2) \/ B2R (ny c1) <> B2R (ny c2)) /\
    around (NP (f64_of_Z (px q)) (f64_of_Z (py q))) c1 c2 = None.
Lemma stuck_panics srt w h Q q : sorter_ok srt -> stuck srt w h Q q -> comparison_panics w h Q q.
Proof.
  intros SO (cs & D & E). pose proof (describes_fin _ _ _ D) as F. destruct (cell_panics srt w h q cs SO F E) as (c1 & c2 & I1 & I2 & N & A). destruct D as [D1 _].
  destruct (D1 c1 I1) as (X1 & Y1 & M1 & V1 & A1). destruct (D1 c2 I2) as (X2 & Y2 & M2 & V2 & A2). exists c1, c2, X1, Y1, M1, X2, Y2, M2.
  split; [exact V1|]. split; [exact A1|]. split; [exact V2|]. split; [exact A2|]. split; [|exact A]. rewrite Forall_forall in F.
  pose proof (npeq_R c1 c2 (F _ I1) (F _ I2)) as NR. destruct (Req_dec (B2R (nx c1)) (B2R (nx c2))) as [E1|E1]; [|auto]. destruct (Req_dec (B2R (ny c1)) (B2R (ny c2))) as [E2|E2]; [|auto].
  rewrite (proj2 NR (conj E1 E2)) in N. discriminate.
Qed.

(* ---------------------------------------------------------------- *)
(** * The theorems *)

(** C52: every vertex of every cell reported by Voronoi is a number in the image, up to
    0.000100001. *)
Theorem C52_voronoi : forall srt hsrt w h ops Q d l, sorter_ok srt -> usual_size w h -> sorts_hulls hsrt -> valid_ops w h [] ops Q -> history hsrt w h ops = Some d ->
  voronoi srt d w h = Some l -> forall poly, In poly l -> Forall (in_frame w h) poly /\ poly <> [].
Proof.
  intros srt hsrt w h ops Q d l SO S HO V E EV poly I. destruct (history_is _ _ _ _ _ _ S HO V E) as [_ O]. destruct (voronoi_cells srt w h Q d l SO S O EV) as (cells & _ & -> & F).
  apply filter_In in I. destruct I as [I N]. split; [apply F, I|]. intros ->. discriminate.
Qed.
Print Assumptions C52_voronoi.

(** C52, for the cells reported by IterPolygons. *)
Theorem C52_incremental : forall srt hsrt w h ops Q v, sorter_ok srt -> usual_size w h -> sorts_hulls hsrt -> valid_ops w h [] ops Q -> iv_history srt hsrt w h ops = Some v ->
  forall poly, In poly (iv_iter v) -> Forall (in_frame w h) poly /\ poly <> [].
Proof.
  intros srt hsrt w h ops Q v SO S HO V E poly I. pose proof (iv_new srt hsrt w h ops Q S HO V) as K. rewrite E in K. destruct K as [K _].
  unfold iv_iter, gm_iter in I. apply filter_In in I. destruct I as [I N]. apply in_map_iff in I. destruct I as ((q & poly') & <- & I). cbn [snd] in *.
  split; [|intros ->; discriminate]. eapply fresh_frame; [exact SO|exact S|]. eapply io_fresh; eauto.
Qed.
Print Assumptions C52_incremental.

(** C53: every polygon of Polygonate lies in the image, has a vertex and no two equal
    neighbours. *)
Lemma polygonate_ops w h : usual_size w h -> forall pts P, Forall pt_in_unit pts -> Z.of_nat (length P) + Z.of_nat (length pts) <= 32765 ->
  exists Q, valid_ops w h P (map (fun p => MAdd (polygonate_point p w h)) pts) Q.
Proof.
  intros S. induction pts as [|p pts IH]; intros P F L; [exists P; constructor|]. inversion F as [|? ? [U1 U2] F']; subst. cbn [length] in L.
  destruct (IH (polygonate_point p w h :: P) F') as (Q & V); [cbn [length]; lia|]. exists Q. cbn [map]. constructor; [|lia|exact V].
  unfold in_image, polygonate_point. cbn [px py]. destruct S as (S1 & S2 & _). split; apply unit_coord; assumption.
Qed.
Lemma polygonate_fold hsrt w h pts d : foldM (fun d p => insert d (polygonate_point p w h)) pts d = foldM (apply_op hsrt) (map (fun p => MAdd (polygonate_point p w h)) pts) d.
Proof. revert d. induction pts as [|p pts IH]; intros d; [reflexivity|]. cbn [foldM map apply_op]. destruct (insert _ _); [apply IH|reflexivity]. Qed.
Lemma polygonate_state w h pts : usual_size w h -> Forall pt_in_unit pts -> Z.of_nat (length pts) <= 32765 ->
  exists d0 d Q, new_delaunay w h = Some d0 /\ foldM (fun d p => insert d (polygonate_point p w h)) pts d0 = Some d /\ dstate_ok w h Q d /\
    forall q, In q Q <-> exists p, In p pts /\ q = polygonate_point p w h.
Proof.
  intros S F L. destruct (polygonate_ops w h S pts [] F ltac:(cbn [length]; lia)) as (Q & V). destruct (new_delaunay_ok w h (small_ok _ _ (usual_small _ _ S))) as (d0 & E0 & O0).
  destruct (history_ok insertion_sort w h _ Q S insertion_sorts_hulls V) as (d & E & O). rewrite (history_eq _ _ _ _ _ E0), <- polygonate_fold in E.
  exists d0, d, Q. split; [exact E0|]. split; [exact E|]. split; [exact O|]. clear - V.
  assert (G : forall pts P Q, valid_ops w h P (map (fun p => MAdd (polygonate_point p w h)) pts) Q -> forall q, In q Q <-> In q P \/ exists p, In p pts /\ q = polygonate_point p w h).
  { clear. induction pts as [|p pts IH]; cbn [map]; intros P Q V q; inversion V as [|? ? ? ? ? ? V'|]; subst.
    - split; [auto|]. intros [I|(p & [] & _)]. exact I.
    - rewrite (IH _ _ V'). cbn [In]. split.
      + intros [[<-|I]|(x & I & ->)]; [right; exists p; auto|left; exact I|right; exists x; auto].
      + intros [I|(x & [<-|I] & ->)]; [auto|auto|right; exists x; auto]. }
  intros q. rewrite (G pts [] Q V). cbn [In]. intuition.
Qed.
Theorem C53_polygons : forall srt pts w h polys, sorter_ok srt -> usual_size w h -> Forall pt_in_unit pts -> Z.of_nat (length pts) <= 32765 ->
  polygonate srt pts w h = Some polys ->
  (length polys <= length (nodup point_eq_dec (map (fun p => polygonate_point p w h) pts)))%nat /\
  forall poly, In poly polys -> poly <> [] /\ no_repeat poly /\ Forall (in_image w h) poly.
Proof.
  intros srt pts w h polys SO S F L. destruct (polygonate_state w h pts S F L) as (d0 & d & Q & E0 & E & O & HQ). unfold polygonate. rewrite E0, E.
  destruct (voronoi srt d w h) as [l|] eqn:EV; [|discriminate]. intros [= <-]. destruct (voronoi_cells srt w h Q d l SO S O EV) as (cells & (ND & IN & F2) & -> & FR). split.
  - rewrite map_length. transitivity (length cells); [clear; induction cells as [|c cells IH]; cbn; [lia|]; destruct (nonempty c); cbn; lia|].
    rewrite <- (f2_length _ _ _ F2). apply NoDup_incl_length; [exact ND|]. intros q I. apply nodup_In. apply IN, HQ in I. destruct I as (p & I & ->). apply (in_map (fun p => polygonate_point p w h)), I.
  - intros poly I. apply in_map_iff in I. destruct I as (c & <- & I). apply filter_In in I. destruct I as [I N]. destruct (usual_bounds _ _ S) as [Hw Hh].
    apply round_polygon_ok; [exact Hw|exact Hh|intros ->; discriminate|apply FR, I].
Qed.
Print Assumptions C53_polygons.

(** C54: after any history on an IVoronoi the triangulation is the one the same history
    makes of a Delaunay, and there is exactly one cell for each point present, up to date;
    IterPolygons reports the ones that are not empty. *)
Theorem C54_cells : forall srt hsrt w h ops Q v, sorter_ok srt -> usual_size w h -> sorts_hulls hsrt -> valid_ops w h [] ops Q -> iv_history srt hsrt w h ops = Some v ->
  history hsrt w h ops = Some (v_d v) /\
  exists qs cells, cell_per_point w h Q qs cells /\ iv_iter v = filter nonempty cells /\ concat (v_map v) = combine qs cells.
Proof.
  intros srt hsrt w h ops Q v SO S HO V E. pose proof (iv_new srt hsrt w h ops Q S HO V) as K. rewrite E in K. destruct K as [[A1 A2 A3 A4 A5 A6 A7] Ed]. split; [exact Ed|].
  exists (keys (v_map v)), (map snd (concat (v_map v))). split; [|split; [reflexivity|]].
  - split; [exact A5|]. split; [exact A6|]. unfold keys in *. clear - A7 SO S. induction (concat (v_map v)) as [|[q poly] l IH]; cbn [map fst snd]; [constructor|].
    constructor; [eapply fresh_shows; eauto; apply A7; left; reflexivity|apply IH; intros x y I; apply A7; right; exact I].
  - unfold keys. clear. induction (concat (v_map v)) as [|[q poly] l IH]; cbn; [reflexivity|]. f_equal. exact IH.
Qed.
Print Assumptions C54_cells.

(** C54: the only way a history on an IVoronoi panics is the comparison of two different
    Voronoi vertices of one cell. In particular the panics "oh no" and "uh oh" of
    Insert and Remove are never reached. *)
Theorem C54_panic : forall srt hsrt w h ops Q, sorter_ok srt -> usual_size w h -> sorts_hulls hsrt -> valid_ops w h [] ops Q -> iv_history srt hsrt w h ops = None ->
  exists ops1 ops2 Q1 q, ops = ops1 ++ ops2 /\ valid_ops w h [] ops1 Q1 /\ In q Q1 /\ comparison_panics w h Q1 q.
Proof.
  intros srt hsrt w h ops Q SO S HO V E. pose proof (iv_new srt hsrt w h ops Q S HO V) as K. rewrite E in K. destruct K as (ops1 & ops2 & Q1 & q & E1 & V1 & I & St).
  exists ops1, ops2, Q1, q. split; [exact E1|]. split; [exact V1|]. split; [exact I|]. eapply stuck_panics; eauto.
Qed.
Print Assumptions C54_panic.

(** C63: Voronoi reports one cell for each point present, except the empty ones; the
    cells show the Voronoi cells of these points and three far away ones; ... *)
Theorem C63_cells : forall srt hsrt w h ops Q d l, sorter_ok srt -> usual_size w h -> sorts_hulls hsrt -> valid_ops w h [] ops Q -> history hsrt w h ops = Some d ->
  voronoi srt d w h = Some l -> exists qs cells, cell_per_point w h Q qs cells /\ l = filter nonempty cells.
Proof.
  intros srt hsrt w h ops Q d l SO S HO V E EV. destruct (history_is _ _ _ _ _ _ S HO V E) as [_ O]. destruct (voronoi_cells srt w h Q d l SO S O EV) as (cells & C & El & _). eauto.
Qed.
Print Assumptions C63_cells.

(** ... the far away points change none of the vertices in the image; ... *)
Theorem C63_far_points : forall w h Q q X Y M, usual_size w h -> 4 <= Z.max w h -> (forall p, In p Q -> in_image w h p) -> In q Q -> 0 < M -> loc_in_image w h X Y M ->
  voronoi_vertex (far_points w h ++ Q) q X Y M <-> voronoi_vertex Q q X Y M.
Proof. intros w h Q q X Y M (S1 & S2 & _) HM HQ I PM [HX HY]. apply image_vertices; auto; lia. Qed.
Print Assumptions C63_far_points.

(** ... and if Voronoi panics, then in the comparison of two different Voronoi vertices
    of one cell. *)
Theorem C63_panic : forall srt hsrt w h ops Q d, sorter_ok srt -> usual_size w h -> sorts_hulls hsrt -> valid_ops w h [] ops Q -> history hsrt w h ops = Some d ->
  voronoi srt d w h = None -> exists q, In q Q /\ comparison_panics w h Q q.
Proof.
  intros srt hsrt w h ops Q d SO S HO V E EV. destruct (history_is _ _ _ _ _ _ S HO V E) as [_ O]. destruct (voronoi_stuck srt w h Q d S O EV) as (q & I & St).
  exists q. split; [exact I|]. eapply stuck_panics; eauto.
Qed.
Print Assumptions C63_panic.

(* ---------------------------------------------------------------- *)
(** * Insertion sort, and cells with few vertices *)
Lemma insert_back_some {A} (less : A -> A -> option bool) x l : forall l', insert_back less x l = Some l' -> Permutation (x :: l) l'.
Proof.
  induction l as [|y t IH]; intros l' E; cbn [insert_back] in E; [injection E as <-; reflexivity|].
  destruct (less x y) as [[]|]; [|injection E as <-; reflexivity|discriminate]. destruct (insert_back less x t) as [t'|]; [|discriminate]. injection E as <-.
  rewrite perm_swap. constructor. apply IH. reflexivity.
Qed.
Lemma insert_back_none {A} (less : A -> A -> option bool) x l : insert_back less x l = None -> exists y, In y l /\ less x y = None.
Proof.
  induction l as [|y t IH]; cbn [insert_back]; [discriminate|]. destruct (less x y) as [[]|] eqn:E.
  - destruct (insert_back less x t); [discriminate|]. intros _. destruct (IH eq_refl) as (z & I & Z). exists z. split; [right; exact I|exact Z].
  - discriminate.
  - intros _. exists y. split; [left; reflexivity|exact E].
Qed.
Lemma slice_fold_some {A} (less : A -> A -> option bool) l : forall acc acc', foldM (fun acc x => insert_back less x acc) l acc = Some acc' -> Permutation (acc ++ l) acc'.
Proof.
  induction l as [|x l IH]; intros acc acc' E; cbn [foldM] in E; [injection E as <-; rewrite app_nil_r; reflexivity|].
  destruct (insert_back less x acc) as [a|] eqn:Ea; [|discriminate]. apply IH in E. rewrite <- E. apply insert_back_some in Ea. rewrite <- Ea. rewrite <- Permutation_middle. reflexivity.
Qed.
Lemma slice_fold_none {A} (less : A -> A -> option bool) l : forall acc pre, Permutation pre acc -> foldM (fun acc x => insert_back less x acc) l acc = None ->
  exists i j x y, i <> j /\ nth_error (pre ++ l) i = Some x /\ nth_error (pre ++ l) j = Some y /\ less x y = None.
Proof.
  induction l as [|x l IH]; intros acc pre P E; cbn [foldM] in E; [discriminate|]. destruct (insert_back less x acc) as [a|] eqn:Ea.
  - destruct (IH a (pre ++ [x])) as (i & j & u & v & K); [|exact E|].
    + apply insert_back_some in Ea. rewrite <- Ea, <- P. symmetry. apply Permutation_cons_append.
    + exists i, j, u, v. rewrite <- !app_assoc in K. exact K.
  - apply insert_back_none in Ea. destruct Ea as (y & I & Ey). eapply Permutation_in in I; [|symmetry; exact P]. apply In_nth_error in I. destruct I as (j & Ej).
    assert (Lj : (j < length pre)%nat) by (apply nth_error_Some; congruence). exists (length pre), j, x, y. split; [lia|]. split; [|split; [|exact Ey]].
    + rewrite nth_error_app2, Nat.sub_diag by lia. reflexivity.
    + rewrite nth_error_app1 by exact Lj. exact Ej.
Qed.
Lemma slice_sort_ok : sorter_ok (@slice_sort fpoint).
Proof.
  constructor; unfold slice_sort.
  - intros less l l'. destruct (foldM _ l []) as [a|] eqn:E; [|discriminate]. intros [= <-]. apply slice_fold_some in E. cbn [app] in E. rewrite E. apply Permutation_rev.
  - intros less l. destruct (foldM _ l []) as [a|] eqn:E; [discriminate|]. intros _. apply (slice_fold_none less l [] [] (Permutation_refl _)) in E. exact E.
  - reflexivity.
Qed.

(** At most 6 centres and at most 6 vertices after clipping. *)
Definition small_cell (w h : Z) (p : point) (cs : list fpoint) : bool :=
  let (points, clip) := fold_left (collect w h) cs ([], false) in
  (length points <=? 6)%nat &&
  match slice_sort (around (NP (f64_of_Z (px p)) (f64_of_Z (py p)))) points with
  | None => true
  | Some points => negb clip || (length (clip_polygon w h points) <=? 6)%nat
  end.
Lemma small_cell_sort srt w h p cs : sorter_ok srt -> small_cell w h p cs = true -> cell_from srt w h p cs = cell_from slice_sort w h p cs.
Proof.
  intros SO. unfold small_cell, cell_from. destruct (fold_left (collect w h) cs ([], false)) as [points clip]. rewrite andb_true_iff. intros [L K]. apply Nat.leb_le in L. rewrite (so_small _ SO _ _ L).
  destruct (slice_sort _ points) as [points'|]; [|reflexivity]. destruct clip; [|reflexivity]. cbn [negb orb] in K. apply Nat.leb_le in K. rewrite (so_small _ SO _ _ K). reflexivity.
Qed.
Definition small_cells (d : delaunay) (w h : Z) : bool :=
  forallb (fun p => match centres d p with None => true | Some cs => small_cell w h p cs end) (pm_iter (d_pmap d)).
Lemma small_voronoi srt d w h : sorter_ok srt -> small_cells d w h = true -> voronoi srt d w h = voronoi slice_sort d w h.
Proof.
  intros SO. unfold voronoi, small_cells. intros H. f_equal. induction (pm_iter (d_pmap d)) as [|p l IH]; cbn [mapM forallb] in *; [reflexivity|]. apply andb_true_iff in H. destruct H as [H1 H2].
  rewrite (IH H2). f_equal. unfold cell_of. destruct (centres d p) as [cs|]; [|reflexivity]. rewrite (small_cell_sort srt) by assumption. reflexivity.
Qed.
Definition small_polygons (pts : list npoint) (w h : Z) : bool :=
  match new_delaunay w h with
  | None => true
  | Some d0 => match foldM (fun d p => insert d (polygonate_point p w h)) pts d0 with None => true | Some d => small_cells d w h end
  end.
Lemma small_polygonate srt pts w h : sorter_ok srt -> small_polygons pts w h = true -> polygonate srt pts w h = polygonate slice_sort pts w h.
Proof.
  intros SO. unfold small_polygons, polygonate. destruct (new_delaunay w h) as [d0|]; [|reflexivity]. destruct (foldM _ pts d0) as [d|]; [|reflexivity]. intros H. rewrite (small_voronoi srt) by assumption. reflexivity.
Qed.

(** The point (x/w, y/h), which Polygonate rounds back to the pixel (x, y). *)
Definition at_pixel (w h : Z) (p : point) : npoint := NP (fdiv (f64_of_Z (px p)) (f64_of_Z w)) (fdiv (f64_of_Z (py p)) (f64_of_Z h)).
Lemma at_pixel_unit w h p : 1 <= w <= 1920 -> 1 <= h <= 1920 -> in_image w h p -> pt_in_unit (at_pixel w h p).
Proof.
  intros Hw Hh [Hx Hy]. assert (G : forall x n, 1 <= n <= 1920 -> 0 <= x <= n -> in_unit (fdiv (f64_of_Z x) (f64_of_Z n))).
  { clear. intros x n Hn Hx. destruct (of_Z_R x ltac:(lia)) as [Fx Ex]. destruct (of_Z_R n ltac:(lia)) as [Fn En].
    assert (B : (1 <= IZR n)%R) by (apply IZR_le; lia). assert (Bx : (0 <= IZR x <= IZR n)%R) by (split; apply IZR_le; lia).
    assert (Q : (0 <= IZR x / IZR n <= 1)%R).
    { split; [apply Rmult_le_pos; [lra|apply Rlt_le, Rinv_0_lt_compat; lra]|]. apply Rmult_le_reg_r with (IZR n); [lra|]. unfold Rdiv. rewrite Rmult_assoc, Rinv_l by lra. lra. }
    destruct (fdiv_R _ _ Fx Fn) as [F E]; [rewrite En; lra| |].
    - rewrite Ex, En. apply Rle_trans with 1%R; [apply Rabs_le; lra|]. change 1%R with (Raux.bpow Zaux.radix2 0). apply Raux.bpow_le. lia.
    - split; [exact F|]. rewrite E, Ex, En. split; [rewrite <- rnd_0; apply rnd_le; lra|]. rewrite <- (rnd_Z 1) by lia. apply rnd_le. lra. }
  split; apply G; assumption.
Qed.
Lemma hull_below ws : forall poly b, Forall (fun a => 0 <= a)%R ws -> length ws = length poly -> (forall p, In p poly -> py p <= b) -> (weighted py ws poly <= IZR b * fold_right Rplus 0 ws)%R.
Proof.
  unfold weighted. induction ws as [|a ws IH]; intros [|p poly] b F L H; try discriminate; cbn [combine fold_right fst snd]; [lra|]. inversion F as [|? ? Fa F']; subst.
  specialize (IH poly b F' ltac:(cbn in L; lia) (fun x I => H x (or_intror I))). pose proof (IZR_le _ _ (H p (or_introl eq_refl))) as K. pose proof (Rmult_le_compat_l a _ _ Fa K). lra.
Qed.

(** C62 is false: the polygons do not cover the image. One point gives no polygon; for
    three points the corners of the image on the side of the lowest are missing, and
    the location (50, 99) is in no polygon. *)
Definition one_pixel : list point := [Pt 50 50].
Definition three_pixels : list point := [Pt 10 10; Pt 90 10; Pt 50 90].
Definition three_polygons : list (list point) :=
  [[Pt 0 65; Pt 0 0; Pt 50 0; Pt 50 40]; [Pt 0 65; Pt 50 40; Pt 100 65]; [Pt 50 40; Pt 50 0; Pt 100 0; Pt 100 65]].
Lemma three_small : small_polygons (map (at_pixel 100 100) three_pixels) 100 100 = true. Proof. vm_compute. reflexivity. Qed.
Lemma three_result : polygonate slice_sort (map (at_pixel 100 100) three_pixels) 100 100 = Some three_polygons. Proof. vm_compute. reflexivity. Qed.
Lemma one_small : small_polygons (map (at_pixel 100 100) one_pixel) 100 100 = true. Proof. vm_compute. reflexivity. Qed.
Lemma one_result : polygonate slice_sort (map (at_pixel 100 100) one_pixel) 100 100 = Some []. Proof. vm_compute. reflexivity. Qed.
Lemma size_100 : usual_size 100 100. Proof. unfold usual_size. lia. Qed.
Lemma size_1000 : usual_size 1000 1000. Proof. unfold usual_size. lia. Qed.
Lemma pixels_unit w h l : usual_size w h -> Forall (in_image w h) l -> Forall pt_in_unit (map (at_pixel w h) l).
Proof. intros (S1 & S2 & _) F. induction F; cbn [map]; constructor; [apply at_pixel_unit; auto|auto]. Qed.

Theorem C62_covers_refuted : exists pts w h, usual_size w h /\ Forall pt_in_unit pts /\ length pts = 3%nat /\
  forall srt, sorter_ok srt -> exists polys, polygonate srt pts w h = Some polys /\
  exists x y : Z, 0 < x < w /\ 0 < y < h /\ forall poly, In poly polys -> ~ in_hull (IZR x) (IZR y) poly.
Proof.
  exists (map (at_pixel 100 100) three_pixels), 100, 100. split; [exact size_100|]. split.
  { apply pixels_unit; [exact size_100|]. repeat constructor; cbn [px py]; lia. }
  split; [reflexivity|]. intros srt SO. exists three_polygons. split; [rewrite (small_polygonate srt _ 100 100 SO three_small); exact three_result|].
  exists 50, 99. split; [lia|]. split; [lia|]. intros poly I (ws & L & F & S & _ & EY).
  assert (B : forall p, In p poly -> py p <= 65).
  { intros p Ip. unfold three_polygons in I. cbn [In] in I. destruct I as [<-|[<-|[<-|[]]]]; cbn [In] in Ip; repeat (destruct Ip as [<-|Ip]; [cbn [py]; lia|]); destruct Ip. }
  pose proof (hull_below ws poly 65 F L B) as K. rewrite S, EY in K. lra.
Qed.
Print Assumptions C62_covers_refuted.

Theorem C62_one_point_refuted : exists p w h, usual_size w h /\ pt_in_unit p /\ forall srt, sorter_ok srt -> polygonate srt [p] w h = Some [].
Proof.
  exists (at_pixel 100 100 (Pt 50 50)), 100, 100. split; [exact size_100|]. split.
  { apply at_pixel_unit; [lia|lia|split; cbn [px py]; lia]. }
  intros srt SO. change [at_pixel 100 100 (Pt 50 50)] with (map (at_pixel 100 100) one_pixel). rewrite (small_polygonate srt _ 100 100 SO one_small). exact one_result.
Qed.
Print Assumptions C62_one_point_refuted.

(** C64 is false: four points in an image of 1000x1000 make Polygonate panic, whatever
    version of sort.Slice: two of the four circumcentres around (664, 666) are rounded to
    the same height as the point. IVoronoi.Insert of the fourth point panics too. *)
Definition panic_pixels : list point := [Pt 664 666; Pt 36 3; Pt 603 944; Pt 603 388].
Lemma panic_small : small_polygons (map (at_pixel 1000 1000) panic_pixels) 1000 1000 = true. Proof. vm_compute. reflexivity. Qed.
Lemma panic_result : polygonate slice_sort (map (at_pixel 1000 1000) panic_pixels) 1000 1000 = None. Proof. vm_compute. reflexivity. Qed.
Theorem C64_polygonate_refuted : exists pts w h, usual_size w h /\ Forall pt_in_unit pts /\ length pts = 4%nat /\ forall srt, sorter_ok srt -> polygonate srt pts w h = None.
Proof.
  exists (map (at_pixel 1000 1000) panic_pixels), 1000, 1000. split; [exact size_1000|]. split.
  { apply pixels_unit; [exact size_1000|]. repeat constructor; cbn [px py]; lia. }
  split; [reflexivity|]. intros srt SO. rewrite (small_polygonate srt _ 1000 1000 SO panic_small). exact panic_result.
Qed.
Print Assumptions C64_polygonate_refuted.

Definition is_none {A} (o : option A) : bool := match o with None => true | Some _ => false end.
Lemma is_none_spec {A} (o : option A) : is_none o = true -> o = None. Proof. destruct o; [discriminate|reflexivity]. Qed.
Lemma panic_iv : is_none (iv_history slice_sort insertion_sort 1000 1000 (map MAdd panic_pixels)) = true. Proof. vm_compute. reflexivity. Qed.
Theorem C64_incremental_refuted : exists srt hsrt w h ops Q, sorter_ok srt /\ sorts_hulls hsrt /\ usual_size w h /\ valid_ops w h [] ops Q /\ iv_history srt hsrt w h ops = None.
Proof.
  exists slice_sort, insertion_sort, 1000, 1000, (map MAdd panic_pixels), (rev panic_pixels). split; [exact slice_sort_ok|]. split; [exact insertion_sorts_hulls|]. split; [exact size_1000|].
  split; [|apply is_none_spec, panic_iv]. unfold panic_pixels. cbn [map rev app].
  repeat first [apply vo_nil | apply vo_add; [unfold in_image; cbn [px py]; lia|cbn [length]; lia|]].
Qed.
Print Assumptions C64_incremental_refuted.

(* ---------------------------------------------------------------- *)
(** * Examples *)

(** A history with removals on an IVoronoi; the cells, rounded to pixels, are those that
    Voronoi computes for the same history. *)
Definition sample_cells : list (list point) :=
  [[Pt 0 100; Pt 0 77; Pt 16 63; Pt 50 87; Pt 50 100]; [Pt 50 100; Pt 50 87; Pt 54 76; Pt 90 40; Pt 100 43; Pt 100 100];
   [Pt 18 43; Pt 0 33; Pt 0 0; Pt 57 0; Pt 60 10; Pt 31 39]; [Pt 31 39; Pt 60 10; Pt 90 40; Pt 54 76];
   [Pt 60 10; Pt 57 0; Pt 100 0; Pt 100 43; Pt 90 40]; [Pt 0 77; Pt 0 33; Pt 18 43; Pt 16 63]; [Pt 16 63; Pt 18 43; Pt 31 39; Pt 54 76; Pt 50 87]].
Example incremental_sample : option_map (fun v => map round_polygon (iv_iter v)) (iv_history slice_sort insertion_sort 100 100 sample_ops) = Some sample_cells.
Proof. vm_compute. reflexivity. Qed.
Example voronoi_sample : match history insertion_sort 100 100 sample_ops with None => None | Some d => option_map (map round_polygon) (voronoi slice_sort d 100 100) end
  = Some (map (fun i => nth i sample_cells []) [4; 3; 6; 1; 0; 5; 2]%nat).
Proof. vm_compute. reflexivity. Qed.

(** (50, 40) is a vertex of the cell of (50, 90) in the three points of C62, it lies in
    the image, and it is a vertex of the polygon of that cell. *)
Example vertex_sample : voronoi_vertex three_pixels (Pt 50 90) 50 40 1 /\ loc_in_image 100 100 50 40 1 /\ In (Pt 50 40) (nth 1 three_polygons []).
Proof.
  split; [|split; [unfold loc_in_image; lia|cbn; auto]]. unfold three_pixels. split; [lia|]. split; [cbn; auto|]. split.
  - intros s [<-|[<-|[<-|[]]]]; unfold sdist2; cbn [px py]; lia.
  - exists (Pt 10 10), (Pt 90 10). unfold orient, sdist2. cbn [px py]. repeat split; cbn; auto; lia.
Qed.

(** The hypotheses of C54 are met by that history. *)
Example sample_hypotheses : sorter_ok (@slice_sort fpoint) /\ sorts_hulls insertion_sort /\ usual_size 100 100 /\
  valid_ops 100 100 [] sample_ops [Pt 50 50; Pt 33 61; Pt 0 57; Pt 100 0; Pt 20 80; Pt 80 80; Pt 20 20].
Proof. split; [exact slice_sort_ok|]. split; [exact insertion_sorts_hulls|]. split; [exact size_100|exact sample_ops_valid]. Qed.
