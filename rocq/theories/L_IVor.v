(** IVoronoi keeps exactly the cells of the points. *)
From Coq Require Import ZArith Reals List Bool Lia Permutation.
From Flocq Require Import Core IEEE754.BinarySingleNaN.
From Verif Require Import GoNum FloatLemmas L_F32 M_Norm M_Slice M_Geom S_Geom M_Image M_Raster S_Raster M_Delaunay S_Delaunay M_Voronoi S_Voronoi S_Remove
  L_Image L_Raster1 L_Raster6 L_PMap L_GMap L_Super L_Slots L_Slots2 L_Plane L_BW L_Toggle L_Count L_Insert L_Circle L_Hist L_Lookup L_Score L_Remove L_Tiles L_VorGeo L_Voronoi L_Centres.
Import ListNotations.
Local Open Scope Z_scope.

(* ---------------------------------------------------------------- *)
(** * Vertices depend on the set of sites *)
Lemma vertex_ext S S' q X Y M : (forall x, In x S <-> In x S') -> voronoi_vertex S q X Y M -> voronoi_vertex S' q X Y M.
Proof.
  intros H (HM & Iq & N & a & b & Ia & Ib & R). split; [exact HM|]. split; [apply H, Iq|]. split; [intros s I; apply N, H, I|].
  exists a, b. split; [apply H, Ia|]. split; [apply H, Ib|exact R].
Qed.
Lemma sdist2_same X Y M X' Y' M' v : M * X' = M' * X -> M * Y' = M' * Y -> M * M * sdist2 X' Y' M' v = M' * M' * sdist2 X Y M v.
Proof.
  intros EX EY. unfold sdist2.
  replace (M * M * ((X' - M' * px v) * (X' - M' * px v) + (Y' - M' * py v) * (Y' - M' * py v)))
    with ((M * X' - M * M' * px v) * (M * X' - M * M' * px v) + (M * Y' - M * M' * py v) * (M * Y' - M * M' * py v)) by ring.
  rewrite EX, EY. ring.
Qed.
Lemma vertex_same S q X Y M X' Y' M' : 0 < M -> M * X' = M' * X -> M * Y' = M' * Y -> voronoi_vertex S q X' Y' M' -> voronoi_vertex S q X Y M.
Proof.
  intros HM EX EY (HM' & Iq & N & a & b & Ia & Ib & Ho & Ea & Eb).
  pose proof (fun v => sdist2_same X Y M X' Y' M' v EX EY) as SD.
  assert (P1 : 0 < M * M) by nia. assert (P2 : 0 < M' * M') by nia.
  assert (EQ : forall u v, sdist2 X' Y' M' u = sdist2 X' Y' M' v -> sdist2 X Y M u = sdist2 X Y M v).
  { intros u v E. apply (Z.mul_cancel_l _ _ (M' * M')); [lia|]. rewrite <- !SD, E. reflexivity. }
  split; [exact HM|]. split; [exact Iq|]. split.
  - intros s I. specialize (N s I). apply (Z.mul_le_mono_pos_l _ _ (M' * M') P2). rewrite <- !SD. apply Z.mul_le_mono_nonneg_l; lia.
  - exists a, b. auto 8.
Qed.

Lemma keep_vertices s P P' T T' q X Y M : delaunay_tiling s P T -> delaunay_tiling s P' T' -> inner s q ->
  (forall t, In t T -> In q (verts t) -> In t T') -> voronoi_vertex (verts s ++ P) q X Y M -> voronoi_vertex (verts s ++ P') q X Y M.
Proof.
  intros DT DT' IQ H VV. destruct (vertex_triangle _ _ _ q X Y M DT IQ VV) as (t & It & Vt & U).
  pose proof (t_pos _ _ (dt_tiling _ _ _ DT)) as PT. rewrite Forall_forall in PT. specialize (PT t It). unfold pos in PT.
  destruct (centre_exists (ta t) (tb t) (tc t) ltac:(lia)) as (X' & Y' & M' & C). destruct (U X' Y' M' C) as [U1 U2].
  eapply vertex_same; [exact (proj1 VV)|exact U1|exact U2|]. eapply triangle_vertex; [exact DT'|apply H; eassumption|exact Vt|exact C].
Qed.
Lemma describes_iff S S' q cs : (forall X Y M, voronoi_vertex S q X Y M <-> voronoi_vertex S' q X Y M) -> describes S q cs -> describes S' q cs.
Proof.
  intros H [A B]. split.
  - intros c I. destruct (A c I) as (X & Y & M & VV & R). exists X, Y, M. split; [apply H, VV|exact R].
  - intros X Y M VV. apply B, H, VV.
Qed.

Lemma replaced_keeps w h P P' d d' p q cs Pr : size_ok w h -> dstate_ok w h P d -> dstate_ok w h P' d' -> replaced Pr p (live (d_tris d)) (live (d_tris d')) ->
  in_image w h q -> q <> p -> (forall t, In t (live (d_tris d)) -> Pr t -> ~ In q (verts (ccw t))) ->
  describes (far_points w h ++ P) q cs -> describes (far_points w h ++ P') q cs.
Proof.
  intros S O O' (R & N & K & PA & PB & HR & HN) Hq NE HQ. pose proof (sup_inner w h q S Hq) as IQ. rewrite <- far_super.
  assert (RL : forall t, In t R -> In t (live (d_tris d))) by (intros t I; eapply Permutation_in; [apply Permutation_sym, PA|apply in_or_app; auto]).
  apply describes_iff. intros X Y M. split; (eapply keep_vertices; [eapply ds_del; eassumption|eapply ds_del; eassumption|exact IQ|]).
  - intros t I V. apply in_map_iff in I. destruct I as (u & <- & I). apply in_map.
    eapply Permutation_in in I; [|exact PA]. apply in_app_or in I. destruct I as [I|I].
    + exfalso. apply (HQ u (RL u I) (HR u I) V).
    + eapply Permutation_in; [apply Permutation_sym, PB|apply in_or_app; auto].
  - intros t I V. apply in_map_iff in I. destruct I as (u & <- & I). apply in_map.
    eapply Permutation_in in I; [|exact PB]. apply in_app_or in I. destruct I as [I|I].
    + exfalso. destruct (HN u q I V) as [E|(r & Ir & Vr)]; [contradiction|]. apply (HQ r (RL r Ir) (HR r Ir) Vr).
    + eapply Permutation_in; [apply Permutation_sym, PA|apply in_or_app; auto].
Qed.

(* ---------------------------------------------------------------- *)
(** * The points to update *)
Lemma to_update_In super l p q : In q (to_update super l p) <-> In q l \/ (q = p /\ has_vertex super p = false).
Proof.
  unfold to_update. destruct (has_vertex super p); [intuition congruence|]. destruct (existsb (fun x => peq x p) l) eqn:E.
  - apply existsb_exists in E. destruct E as (x & I & Ex). apply peq_true in Ex. subst x. intuition congruence.
  - rewrite in_app_iff. cbn. intuition congruence.
Qed.
Lemma to_update_NoDup super l p : NoDup l -> NoDup (to_update super l p).
Proof.
  intros N. unfold to_update. destruct (has_vertex super p); [exact N|]. destruct (existsb (fun x => peq x p) l) eqn:E; [exact N|].
  eapply Permutation_NoDup; [apply Permutation_cons_append|]. constructor; [|exact N]. intros I.
  assert (existsb (fun x => peq x p) l = true) by (apply existsb_exists; exists p; split; [exact I|apply peq_refl]). congruence.
Qed.
Lemma update_spec super tris l : (forall i, In i l -> exists t, znth tris i = Some t) -> forall acc, NoDup acc ->
  exists upd, foldM (update_corners super tris) l acc = Some upd /\ NoDup upd /\
    forall q, In q upd <-> In q acc \/ (has_vertex super q = false /\ exists i t, In i l /\ znth tris i = Some t /\ In q (verts (ccw t))).
Proof.
  induction l as [|i l IH]; intros H acc N; cbn [foldM].
  - exists acc. split; [reflexivity|]. split; [exact N|]. intros q. split; [auto|]. intros [I|(_ & i & t & [] & _)]. exact I.
  - unfold update_corners at 1. destruct (H i (or_introl eq_refl)) as (t & Et). rewrite Et.
    destruct (IH (fun j J => H j (or_intror J)) (to_update super (to_update super (to_update super acc (d_a t)) (d_b t)) (d_c t))) as (upd & -> & NU & HU).
    { repeat apply to_update_NoDup. exact N. }
    exists upd. split; [reflexivity|]. split; [exact NU|]. intros q. rewrite HU, !to_update_In. split.
    + intros [[[[I|[-> F]]|[-> F]]|[-> F]]|(F & j & u & Ij & Eu & V)].
      * auto.
      * right. split; [exact F|]. exists i, t. repeat split; auto; [now left|]. apply ccw_verts. auto.
      * right. split; [exact F|]. exists i, t. repeat split; auto; [now left|]. apply ccw_verts. auto.
      * right. split; [exact F|]. exists i, t. repeat split; auto; [now left|]. apply ccw_verts. auto.
      * right. split; [exact F|]. exists j, u. repeat split; auto. now right.
    + intros [I|(F & j & u & [<-|Ij] & Eu & V)].
      * auto.
      * rewrite Et in Eu. injection Eu as <-. apply ccw_verts in V. destruct V as [->|[->| ->]]; auto 8.
      * right. split; [exact F|]. exists j, u. auto.
Qed.

(* ---------------------------------------------------------------- *)
(** * The polygon map *)
Definition keys (gm : gmap) : list point := map fst (concat gm).
Lemma remove_all l : forall gm, gm_ok gm -> NoDup l -> NoDup (keys gm) -> (forall q, In q l -> In q (keys gm)) -> (forall q, In q l -> hashable q) ->
  exists gm', foldM remove_polygon l gm = Some gm' /\ gm_ok gm' /\ NoDup (keys gm') /\ forall e, In e (concat gm') <-> In e (concat gm) /\ ~ In (fst e) l.
Proof.
  induction l as [|p l IH]; intros gm O N NK I H; cbn [foldM].
  - exists gm. split; [reflexivity|]. split; [exact O|]. split; [exact NK|]. intros e. cbn. tauto.
  - pose proof (remove_polygon_ok gm p O (H p (or_introl eq_refl))) as RP. destruct (remove_polygon gm p) as [g1|].
    + destruct RP as (O1 & _ & poly & P1). pose proof (Permutation_map fst P1) as PK. cbn [map fst] in PK. fold (keys g1) in PK. fold (keys gm) in PK.
      assert (NK1 : NoDup (p :: keys g1)) by (eapply Permutation_NoDup; [apply Permutation_sym, PK|exact NK]). inversion NK1 as [|? ? NP1 NK1']; subst.
      inversion N as [|? ? NP N']; subst.
      destruct (IH g1 O1 N' NK1') as (g2 & E2 & O2 & NK2 & HE).
      * intros q Iq. assert (J : In q (keys gm)) by (apply I; right; exact Iq). eapply Permutation_in in J; [|apply Permutation_sym, PK]. destruct J as [<-|J]; [contradiction|exact J].
      * intros q Iq. apply H. right. exact Iq.
      * exists g2. split; [exact E2|]. split; [exact O2|]. split; [exact NK2|]. intros e. rewrite HE. split.
        -- intros [J NI]. split; [eapply Permutation_in; [exact P1|right; exact J]|]. intros [Ep|K]; [|contradiction]. apply NP1. rewrite Ep. apply in_map. exact J.
        -- intros [J NI]. split; [|intros K; apply NI; right; exact K]. eapply Permutation_in in J; [|apply Permutation_sym, P1]. destruct J as [<-|J]; [|exact J].
           exfalso. apply NI. left. reflexivity.
    + exfalso. destruct (proj1 (in_map_iff _ _ _) (I p (or_introl eq_refl))) as (e & Ee & Ie). apply (RP e Ie Ee).
Qed.

Lemma process_all srt w h d l : forall gm, gm_ok gm -> NoDup l -> NoDup (keys gm) -> (forall q, In q l -> ~ In q (keys gm)) -> (forall q, In q l -> hashable q) ->
  match foldM (process_point srt w h d) l gm with
  | None => exists q, In q l /\ cell_of srt d w h q = None
  | Some gm' => gm_ok gm' /\ NoDup (keys gm') /\ (forall q, In q (keys gm') <-> In q (keys gm) \/ In q l) /\
      forall q poly, In (q, poly) (concat gm') -> In (q, poly) (concat gm) \/ (In q l /\ cell_of srt d w h q = Some poly)
  end.
Proof.
  induction l as [|p l IH]; intros gm O N NK I H; cbn [foldM].
  - split; [exact O|]. split; [exact NK|]. split; [intros q; cbn; tauto|]. auto.
  - unfold process_point at 1. destruct (cell_of srt d w h p) as [poly|] eqn:EC.
    2: { exists p. split; [now left|exact EC]. }
    destruct (add_polygon_ok gm p poly O (H p (or_introl eq_refl))) as (g1 & -> & O1 & _ & P1).
    pose proof (Permutation_map fst P1) as PK. cbn [map fst] in PK. fold (keys g1) in PK. fold (keys gm) in PK. inversion N as [|? ? NP N']; subst.
    specialize (IH g1 O1 N'). 
    assert (NK1 : NoDup (keys g1)) by (eapply Permutation_NoDup; [apply Permutation_sym, PK|constructor; [apply I; now left|exact NK]]).
    specialize (IH NK1). destruct (foldM (process_point srt w h d) l g1) as [g2|].
    + destruct IH as (O2 & NK2 & HK & HE).
      * intros q Iq J. eapply Permutation_in in J; [|exact PK]. destruct J as [<-|J]; [contradiction|]. apply (I q (or_intror Iq) J).
      * intros q Iq. apply H. right. exact Iq.
      * split; [exact O2|]. split; [exact NK2|]. split.
        -- intros q. rewrite HK. split.
           ++ intros [J|J]; [|right; right; exact J]. eapply Permutation_in in J; [|exact PK]. destruct J as [<-|J]; [right; now left|auto].
           ++ intros [J|[<-|J]]; [| |auto]; left; (eapply Permutation_in; [apply Permutation_sym, PK|]); [right; exact J|left; reflexivity].
        -- intros q pl J. destruct (HE q pl J) as [K|[K1 K2]]; [|right; split; [right; exact K1|exact K2]].
           eapply Permutation_in in K; [|exact P1]. destruct K as [[= <- <-]|K]; [right; split; [now left|exact EC]|auto].
    + destruct IH as (q & Iq & Eq).
      * intros q Iq J. eapply Permutation_in in J; [|exact PK]. destruct J as [<-|J]; [contradiction|]. apply (I q (or_intror Iq) J).
      * intros q Iq. apply H. right. exact Iq.
      * exists q. split; [now right|exact Eq].
Qed.

(* ---------------------------------------------------------------- *)
(** * The invariant *)
Definition fresh (srt : sorter) (w h : Z) (Q : list point) (q : point) (poly : list fpoint) : Prop :=
  exists cs, describes (far_points w h ++ Q) q cs /\ cell_from srt w h q cs = Some poly.
Definition stuck (srt : sorter) (w h : Z) (Q : list point) (q : point) : Prop :=
  exists cs, describes (far_points w h ++ Q) q cs /\ cell_from srt w h q cs = None.
Record iv_ok (srt : sorter) (w h : Z) (Q : list point) (v : ivor) : Prop := {
  io_d : dstate_ok w h Q (v_d v);
  io_w : v_w v = w;
  io_h : v_h v = h;
  io_gm : gm_ok (v_map v);
  io_nodup : NoDup (keys (v_map v));
  io_keys : forall q, In q (keys (v_map v)) <-> In q Q;
  io_fresh : forall q poly, In (q, poly) (concat (v_map v)) -> fresh srt w h Q q poly }.

Lemma cell_fresh srt w h P d q poly : small_size w h -> dstate_ok w h P d -> In q P -> cell_of srt d w h q = Some poly -> fresh srt w h P q poly.
Proof.
  intros S O I E. destruct (centres_ok w h P d q S O I) as (cs & Ec & D). unfold cell_of in E. rewrite Ec in E. exists cs. auto.
Qed.
Lemma cell_stuck srt w h P d q : small_size w h -> dstate_ok w h P d -> In q P -> cell_of srt d w h q = None -> stuck srt w h P q.
Proof.
  intros S O I E. destruct (centres_ok w h P d q S O I) as (cs & Ec & D). unfold cell_of in E. rewrite Ec in E. exists cs. auto.
Qed.

Lemma image_not_super w h q : size_ok w h -> in_image w h q -> ~ In q (verts (sup w h)).
Proof.
  intros S Hq V. pose proof (sup_inner w h q S Hq) as IN. unfold inner, inside in IN. rewrite !oloc_at in IN. unfold orient in IN. clear - IN V.
  destruct (sup w h) as [a b c]. cbn [verts In ta tb tc] in *. destruct V as [<-|[<-|[<-|[]]]]; lia.
Qed.
Lemma super_vertex w h P d q : size_ok w h -> dstate_ok w h P d -> has_vertex (d_super d) q = true <-> In q (verts (sup w h)).
Proof.
  intros S O. rewrite (ds_super _ _ _ _ O), has_vertex_iff, ccw_verts, (sup_in_super w h S). generalize (new_super_triangle w h). intros t. cbn [In]. intuition congruence.
Qed.
Lemma image_has_vertex w h P d q : size_ok w h -> dstate_ok w h P d -> in_image w h q -> has_vertex (d_super d) q = false.
Proof.
  intros S O Hq. destruct (has_vertex (d_super d) q) eqn:E; [|reflexivity]. apply (super_vertex w h P d q S O) in E. exfalso. revert E. apply image_not_super; assumption.
Qed.
Lemma corner_in w h P d t q : size_ok w h -> dstate_ok w h P d -> In t (live (d_tris d)) -> In q (verts (ccw t)) -> has_vertex (d_super d) q = false -> In q P.
Proof.
  intros S O It V F. pose proof (dt_verts _ _ _ (ds_del _ _ _ _ O) (ccw t) q (in_map ccw _ _ It) V) as K. apply in_app_or in K. destruct K as [K|K]; [|exact K].
  apply (super_vertex w h P d q S O) in K. congruence.
Qed.

Lemma new_iv_ok srt w h : small_size w h -> exists v, new_voronoi w h = Some v /\ iv_ok srt w h [] v /\ new_delaunay w h = Some (v_d v).
Proof.
  intros S. destruct (new_delaunay_ok w h (small_ok _ _ S)) as (d & E & O). destruct (new_gm_ok 6 ltac:(lia)) as (gm & Eg & G & CG & _).
  unfold new_voronoi. rewrite E, Eg. eexists. split; [reflexivity|]. split; [|reflexivity]. constructor; cbn [v_d v_w v_h v_map]; auto; unfold keys; rewrite ?CG.
  - constructor.
  - intros q. cbn. tauto.
  - intros q poly. intros [].
Qed.

(** The triangles found, and the points to update. *)
Lemma update_found w h P d l (Pr : dtri -> Prop) : size_ok w h -> dstate_ok w h P d ->
  (forall i, In i l <-> exists t, znth (d_tris d) i = Some t /\ is_freed t = false /\ Pr t) ->
  exists upd, foldM (update_corners (d_super d) (d_tris d)) l [] = Some upd /\ NoDup upd /\ (forall q, In q upd -> In q P) /\
    (forall q t, In q P -> In t (live (d_tris d)) -> Pr t -> In q (verts (ccw t)) -> In q upd).
Proof.
  intros S O Hl. destruct (update_spec (d_super d) (d_tris d) l) with (acc := @nil point) as (upd & E & N & HU).
  - intros i I. apply Hl in I. destruct I as (t & Et & _). eauto.
  - constructor.
  - exists upd. split; [exact E|]. split; [exact N|]. split.
    + intros q I. apply HU in I. destruct I as [[]|(F & i & t & Ii & Et & V)]. apply Hl in Ii. destruct Ii as (u & Eu & Fu & _). rewrite Et in Eu. injection Eu as <-.
      eapply corner_in; eauto. apply live_In. split; [eapply znth_In; exact Et|exact Fu].
    + intros q t Iq It Pt V. apply HU. right. split; [eapply image_has_vertex; eauto; apply (ds_in _ _ _ _ O), Iq|].
      apply live_znth in It. destruct It as (i & Ei & Fi). exists i, t. repeat split; auto. apply Hl. exists t. auto.
Qed.

Lemma upd_step srt w h P P' v d' p upd upd' (Pr : dtri -> Prop) : small_size w h -> iv_ok srt w h P v -> dstate_ok w h P' d' ->
  replaced Pr p (live (d_tris (v_d v))) (live (d_tris d')) -> NoDup upd -> (forall q, In q upd -> In q P) ->
  (forall q t, In q P -> In t (live (d_tris (v_d v))) -> Pr t -> In q (verts (ccw t)) -> In q upd) ->
  NoDup upd' -> (forall q, In q upd' <-> (In q upd \/ q = p) /\ In q P') -> (forall q, In q P' -> In q P \/ q = p) -> (forall q, In q P -> In q P' \/ q = p) ->
  (In p P -> In p upd) ->
  exists gm, foldM remove_polygon upd (v_map v) = Some gm /\
  match foldM (process_point srt w h d') upd' gm with
  | None => exists q, In q P' /\ stuck srt w h P' q
  | Some gm' => iv_ok srt w h P' (IV d' w h gm')
  end.
Proof.
  intros S V O' RP NU UP UT NU' HU' PP1 PP2 PU. pose proof (small_ok _ _ S) as S'. pose proof (io_d _ _ _ _ _ V) as O.
  assert (HP : forall q, In q P -> hashable q) by (intros q I; eapply in_image_hashable; [exact S'|apply (ds_in _ _ _ _ O), I]).
  assert (HP' : forall q, In q P' -> hashable q) by (intros q I; eapply in_image_hashable; [exact S'|apply (ds_in _ _ _ _ O'), I]).
  destruct (remove_all upd (v_map v) (io_gm _ _ _ _ _ V) NU (io_nodup _ _ _ _ _ V)) as (gm & Eg & G & NK & HE).
  { intros q I. apply (io_keys _ _ _ _ _ V), UP, I. }
  { intros q I. apply HP, UP, I. }
  exists gm. split; [exact Eg|].
  assert (KE : forall q, In q (keys gm) <-> In q P /\ ~ In q upd).
  { intros q. unfold keys. rewrite in_map_iff. split.
    - intros (e & <- & I). apply HE in I. destruct I as [I NI]. split; [|exact NI]. apply (io_keys _ _ _ _ _ V). apply in_map. exact I.
    - intros [I NI]. apply (io_keys _ _ _ _ _ V) in I. apply in_map_iff in I. destruct I as (e & <- & I). exists e. split; [reflexivity|]. apply HE. auto. }
  assert (KP : forall q, In q P -> ~ In q upd -> q <> p) by (intros q I NI ->; apply NI, PU, I).
  pose proof (process_all srt w h d' upd' gm G NU' NK) as PA. destruct (foldM (process_point srt w h d') upd' gm) as [gm'|].
  - destruct PA as (G' & NK' & HK & HF).
    { intros q I J. apply KE in J. destruct J as [J NJ]. apply HU' in I. destruct I as [[I| ->] _]; [contradiction|]. apply NJ, PU, J. }
    { intros q I. apply HU' in I. apply HP', I. }
    constructor; cbn [v_d v_w v_h v_map]; auto.
    + intros q. rewrite HK, KE, HU'. split.
      * intros [[I NI]|[_ I]]; [|exact I]. destruct (PP2 q I) as [J|J]; [exact J|]. exfalso. exact (KP q I NI J).
      * intros I. destruct (in_dec point_eq_dec q upd) as [J|J]; [right; auto|]. destruct (PP1 q I) as [K|K]; [left; auto|right; auto].
    + intros q poly I. destruct (HF q poly I) as [J|[J1 J2]].
      * apply HE in J. destruct J as [J NJ]. cbn [fst] in NJ. destruct (io_fresh _ _ _ _ _ V q poly J) as (cs & D & C). exists cs. split; [|exact C].
        assert (IQ : In q P) by (apply (io_keys _ _ _ _ _ V); apply in_map_iff; exists (q, poly); auto).
        eapply (replaced_keeps w h P P' (v_d v) d' p q cs Pr); eauto.
        apply (ds_in _ _ _ _ O), IQ.
      * eapply cell_fresh; eauto. apply HU' in J1. apply J1.
  - destruct PA as (q & Iq & Eq).
    { intros q I J. apply KE in J. destruct J as [J NJ]. apply HU' in I. destruct I as [[I| ->] _]; [contradiction|]. apply NJ, PU, J. }
    { intros q I. apply HU' in I. apply HP', I. }
    apply HU' in Iq. exists q. split; [apply Iq|]. eapply cell_stuck; eauto. apply Iq.
Qed.

Lemma far_ext w h P P' : (forall x, In x P <-> In x P') -> forall x, In x (far_points w h ++ P) <-> In x (far_points w h ++ P').
Proof. intros H x. rewrite !in_app_iff, H. tauto. Qed.
Lemma same_points srt w h P P' v d' : iv_ok srt w h P v -> dstate_ok w h P' d' -> (forall x, In x P <-> In x P') -> iv_ok srt w h P' (IV d' w h (v_map v)).
Proof.
  intros [A B C D E F G] O' H. constructor; cbn [v_d v_w v_h v_map]; auto.
  - intros q. rewrite F. apply H.
  - intros q poly I. destruct (G q poly I) as (cs & D1 & C1). exists cs. split; [|exact C1]. eapply describes_iff; [|exact D1].
    intros X Y M. split; apply vertex_ext; [|symmetry]; apply far_ext; assumption.
Qed.

Theorem iv_insert_ok srt w h P v p : small_size w h -> iv_ok srt w h P v -> in_image w h p -> Z.of_nat (length P) < 32765 ->
  exists d', insert (v_d v) p = Some d' /\
  match iv_insert srt v p with
  | None => exists q, In q (p :: P) /\ stuck srt w h (p :: P) q
  | Some v' => iv_ok srt w h (p :: P) v' /\ v_d v' = d'
  end.
Proof.
  intros S V Hp L. pose proof (small_ok _ _ S) as S'. pose proof (io_d _ _ _ _ _ V) as O. pose proof (io_w _ _ _ _ _ V) as EW. pose proof (io_h _ _ _ _ _ V) as EH.
  assert (DL : distinct (p :: P) <= 32765).
  { unfold distinct. pose proof (NoDup_incl_length (NoDup_nodup point_eq_dec (p :: P)) (l' := p :: P) (fun x I => proj1 (nodup_In _ _ _) I)). cbn [length] in *. lia. }
  pose proof (count_occ_bound point_eq_dec p P) as CB.
  destruct (insert_change w h P (v_d v) p S' O Hp (small_complete w h P (v_d v) p S O Hp)) as (d' & E & O' & RP); [unfold mult; lia|exact DL|].
  exists d'. split; [exact E|]. unfold iv_insert. rewrite (copies_of_ok _ _ p (ds_pm _ _ _ _ O) (in_image_hashable _ _ _ S' Hp)), E, EW, EH.
  destruct (Z.ltb_spec 0 (mult P p)) as [Q|Q]; cbn [option_map].
  - split; [|reflexivity]. eapply same_points; eauto. assert (I : In p P) by (apply (count_occ_In point_eq_dec); unfold mult in Q; lia).
    intros x. cbn [In]. split; [auto|intros [<-|J]; assumption].
  - assert (NI : ~ In p P) by (intros I; apply (count_occ_In point_eq_dec) in I; unfold mult in Q; lia).
    destruct (circles_ok w h P (v_d v) p S O Hp) as (l & -> & Hl).
    destruct (update_found w h P (v_d v) l (fun t => 0 <= tinc (ccw t) p) S' O Hl) as (upd & -> & NU & UP & UT).
    assert (HV : has_vertex (d_super d') p = false) by (eapply image_has_vertex; eauto).
    destruct (upd_step srt w h P (p :: P) v d' p upd (to_update (d_super d') upd p) _ S V O' RP NU UP UT) as (gm & -> & R).
    + apply to_update_NoDup, NU.
    + intros q. rewrite to_update_In. cbn [In]. split.
      * intros [I|[-> _]]; [split; [auto|right; apply UP, I]|auto].
      * intros [[I| ->] _]; auto.
    + intros q [<-|I]; auto.
    + intros q I. left. right. exact I.
    + contradiction.
    + destruct (foldM _ _ gm) as [gm'|]; cbn [option_map]; [split; [exact R|reflexivity]|exact R].
Qed.

Theorem iv_remove_ok srt hsrt w h P v p P' : small_size w h -> iv_ok srt w h P v -> take_out p P = Some P' -> sorts (hull_less p) (hsrt p) -> Z.of_nat (length P) <= 32765 ->
  exists d', remove (hsrt p) (v_d v) p = Some d' /\
  match iv_remove srt hsrt v p with
  | None => exists q, In q P' /\ stuck srt w h P' q
  | Some v' => iv_ok srt w h P' v' /\ v_d v' = d'
  end.
Proof.
  intros S V TO SO L. pose proof (small_ok _ _ S) as S'. pose proof (io_d _ _ _ _ _ V) as O. pose proof (io_w _ _ _ _ _ V) as EW. pose proof (io_h _ _ _ _ _ V) as EH.
  pose proof (take_out_spec _ _ _ TO) as TP. assert (Ip : In p P) by (eapply Permutation_in; [exact TP|left; reflexivity]). pose proof (ds_in _ _ _ _ O p Ip) as Hp.
  assert (DL : distinct P <= 32765).
  { unfold distinct. pose proof (NoDup_incl_length (NoDup_nodup point_eq_dec P) (l' := P) (fun x I => proj1 (nodup_In _ _ _) I)). lia. }
  destruct (remove_change w h P (v_d v) p P' (hsrt p) S O Hp TO SO DL) as (d' & E & O' & RP).
  exists d'. split; [exact E|]. unfold iv_remove. rewrite (copies_of_ok _ _ p (ds_pm _ _ _ _ O) (in_image_hashable _ _ _ S' Hp)), E, EW, EH.
  assert (MP : mult P p = mult P' p + 1).
  { unfold mult. rewrite (Permutation_count_occ point_eq_dec) in TP. rewrite <- (TP p). cbn [count_occ]. destruct (point_eq_dec p p); [lia|contradiction]. }
  destruct (Z.ltb_spec 1 (mult P p)) as [Q|Q]; cbn [option_map].
  - split; [|reflexivity]. eapply same_points; eauto. assert (I : In p P') by (apply (count_occ_In point_eq_dec); unfold mult in *; lia).
    intros x. destruct (point_eq_dec x p) as [->|N]; [tauto|apply (take_out_In _ _ _ TO x N)].
  - assert (NI : ~ In p P') by (intros I; apply (count_occ_In point_eq_dec) in I; unfold mult in *; lia).
    destruct (with_vertex_ok w h P (v_d v) p S O Hp) as (l & -> & Hl).
    destruct (update_found w h P (v_d v) l (fun t => In p (verts (ccw t))) S' O Hl) as (upd & -> & NU & UP & UT).
    assert (PU : In p upd).
    { destruct (dt_used _ _ _ (ds_del _ _ _ _ O) p Ip) as (t & It & Vt). apply in_map_iff in It. destruct It as (u & <- & Iu). eapply UT; eauto. }
    destruct (upd_step srt w h P P' v d' p upd (filter (fun q => negb (peq q p)) upd) _ S V O' RP NU UP UT) as (gm & -> & R).
    + apply NoDup_filter, NU.
    + intros q. rewrite filter_In. split.
      * intros [I N]. apply negb_true_iff, peq_false in N. split; [auto|]. apply (take_out_In _ _ _ TO q N), UP, I.
      * intros [[I| ->] J]; [|contradiction]. split; [exact I|]. apply negb_true_iff, peq_false. intros ->. contradiction.
    + intros q I. left. eapply Permutation_in; [exact TP|right; exact I].
    + intros q I. destruct (point_eq_dec q p) as [->|N]; [auto|]. left. apply (take_out_In _ _ _ TO q N), I.
    + intros _. exact PU.
    + destruct (foldM _ _ gm) as [gm'|]; cbn [option_map]; [split; [exact R|reflexivity]|exact R].
Qed.
