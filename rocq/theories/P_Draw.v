(** C72: what Triangulate returns, and how the drawn triangles and the scored ones compare. *)
From Coq Require Import ZArith Reals List Bool Arith Lia Lra Permutation.
From Flocq Require Import Core IEEE754.BinarySingleNaN.
From Verif Require Import GoNum FloatLemmas M_Norm M_Slice M_Geom S_Geom L_Geom M_Image S_Image M_Raster S_Raster M_Render S_Norm M_Delaunay S_Delaunay S_Remove M_Algo S_Algo M_Fitness S_Fitness S_Run S_Run2
  L_Plane L_BW L_Insert L_Super L_Score L_Run2 L_Circle L_Tiles P_Delaunay P_Remove P_Raster P_Run2 M_Draw S_Draw L_Draw.
Import ListNotations.
Open Scope Z_scope.

(** * The triangles Triangulate returns *)
Definition whole (p : npoint) : point := Pt (go_int (nx p)) (go_int (ny p)).
Lemma group_whole pts w h : map whole (draw_group pts w h) = map (fun p => render_point p w h) pts.
Proof. unfold draw_group. rewrite map_map. apply map_ext. intros p. reflexivity. Qed.
Lemma group_length pts w h : length (draw_group pts w h) = length pts.
Proof. apply map_length. Qed.
Lemma group_at_some g i : 0 <= i < Z.of_nat (length g) -> exists p, group_at g i = Some p /\ nth (Z.to_nat i) (map whole g) (Pt 0 0) = whole p.
Proof.
  intros H. unfold group_at. destruct (Z.ltb_spec i 0); [lia|]. destruct (nth_error g (Z.to_nat i)) as [p|] eqn:E.
  - exists p. split; [reflexivity|]. apply nth_error_nth. rewrite nth_error_map, E. reflexivity.
  - apply nth_error_None in E. lia.
Qed.
Lemma div3 n : (S (S (S n)) / 3 = S (n / 3))%nat.
Proof. replace (S (S (S n))) with (1 * 3 + n)%nat by lia. rewrite Nat.div_add_l by lia. reflexivity. Qed.
Lemma draw_loop_picks g : forall m ix, (length ix <= m)%nat -> index_list (length g) ix -> exists ts, draw_loop g ix = Some ts /\ picks (map whole g) ix ts.
Proof.
  induction m as [|m IH]; intros ix L H.
  { destruct ix; [|cbn in L; lia]. exists []. split; [reflexivity|]. split; [reflexivity|]. cbn [length]. lia. }
  destruct ix as [|i [|j [|k ix]]]; try (exists []; split; [reflexivity|]; split; [reflexivity|]; cbn [length]; lia).
  inversion H as [|? ? Hi H1]; subst. inversion H1 as [|? ? Hj H2]; subst. inversion H2 as [|? ? Hk H3]; subst.
  destruct (group_at_some g i Hi) as (a & Ea & Na). destruct (group_at_some g j Hj) as (b & Eb & Nb). destruct (group_at_some g k Hk) as (c & Ec & Nc).
  destruct (IH ix ltac:(cbn [length] in L; lia) H3) as (ts & E & P1 & P2). cbn [draw_loop]. rewrite Ea, Eb, Ec, E. eexists. split; [reflexivity|]. split.
  - cbn [length]. rewrite div3, P1. reflexivity.
  - intros [|n] Hn; [cbn; rewrite Na, Nb, Nc; reflexivity|]. cbn [length] in Hn. specialize (P2 n ltac:(lia)). cbv zeta in *. cbn [nth]. rewrite P2.
    replace (3 * S n + 0)%nat with (S (S (S (3 * n + 0)))) by lia. replace (3 * S n + 1)%nat with (S (S (S (3 * n + 1)))) by lia. replace (3 * S n + 2)%nat with (S (S (S (3 * n + 2)))) by lia. reflexivity.
Qed.

(** If the third-party code returns indices of its points, Triangulate returns, for three
    indices each, the triangle between these points rounded to pixels. *)
Theorem C72_triangulate : forall del pts w h ix, del (draw_group pts w h) = Some ix -> index_list (length pts) ix ->
  exists ts, triangulate del pts w h = Some ts /\ picks (map (fun p => render_point p w h) pts) ix ts.
Proof.
  intros del pts w h ix E H. unfold triangulate. rewrite E. rewrite <- (group_length pts w h) in H.
  destruct (draw_loop_picks _ (length ix) ix (le_n _) H) as (ts & D & P). rewrite group_whole in P. exists ts. auto.
Qed.
Print Assumptions C72_triangulate.

(** If it returns, the indices used, all but a rest of one or two, were indices of points; any
    other index makes it panic. *)
Lemma group_at_in g i : group_at g i <> None -> 0 <= i < Z.of_nat (length g).
Proof.
  unfold group_at. destruct (Z.ltb_spec i 0); [congruence|]. intros N. apply nth_error_Some in N. lia.
Qed.
Lemma draw_loop_in g : forall m ix ts, (length ix <= m)%nat -> draw_loop g ix = Some ts -> index_list (length g) (firstn (3 * (length ix / 3)) ix).
Proof.
  induction m as [|m IH]; intros ix ts L E.
  { destruct ix; [constructor|cbn in L; lia]. }
  destruct ix as [|i [|j [|k ix]]]; try constructor. cbn [draw_loop] in E.
  destruct (group_at g i) eqn:Ei; [|discriminate]. destruct (group_at g j) eqn:Ej; [|discriminate]. destruct (group_at g k) eqn:Ek; [|discriminate]. destruct (draw_loop g ix) as [us|] eqn:El; [|discriminate].
  cbn [length]. rewrite div3. replace (3 * S (length ix / 3))%nat with (S (S (S (3 * (length ix / 3))))) by lia. cbn [firstn].
  constructor; [apply group_at_in; congruence|]. constructor; [apply group_at_in; congruence|]. constructor; [apply group_at_in; congruence|]. apply (IH ix us); [cbn [length] in L; lia|exact El].
Qed.
Theorem C72_indices : forall del pts w h ts, triangulate del pts w h = Some ts ->
  exists ix, del (draw_group pts w h) = Some ix /\ index_list (length pts) (firstn (3 * (length ix / 3)) ix).
Proof.
  intros del pts w h ts E. unfold triangulate in E. destruct (del (draw_group pts w h)) as [ix|]; [|discriminate]. exists ix. split; [reflexivity|].
  rewrite <- (group_length pts w h). eapply draw_loop_in; [apply le_n|exact E].
Qed.
Print Assumptions C72_indices.
(** An index past the end and a negative one. *)
Example C72_indices_case : triangulate (fun _ => Some [0; 1; 3]) [NP f0 f0; NP f1 f0; NP f0 f1] 10 10 = None /\ triangulate (fun _ => Some [0; 1; -1]) [NP f0 f0; NP f1 f0; NP f0 f1] 10 10 = None /\
  triangulate (fun _ => Some [0; 1; 2; 7]) [NP f0 f0; NP f1 f0; NP f0 f1] 10 10 = Some [Tri (Pt 0 0) (Pt 10 0) (Pt 0 10)].
Proof. vm_compute. auto. Qed.

Lemma picks_in Q ix ts t : index_list (length Q) ix -> picks Q ix ts -> In t ts -> In (ta t) Q /\ In (tb t) Q /\ In (tc t) Q.
Proof.
  intros H [L P] I. destruct (In_nth ts t (Tri (Pt 0 0) (Pt 0 0) (Pt 0 0)) I) as (i & Hi & <-). rewrite (P i Hi). cbn [ta tb tc].
  assert (G : forall k, (k < 3)%nat -> In (nth (Z.to_nat (nth (3 * i + k) ix 0)) Q (Pt 0 0)) Q).
  { intros k Hk. apply nth_In. assert (B : (3 * i + k < length ix)%nat) by (pose proof (Nat.div_mod (length ix) 3 ltac:(lia)); lia).
    pose proof (proj1 (Forall_forall _ _) H _ (nth_In ix 0 B)) as K. cbv beta in K. lia. }
  repeat split; apply G; lia.
Qed.

(** * Rounded points are in the image, and are the points the fitness functions use *)
Lemma coord_in x w : 1 <= w <= 2 ^ 24 -> in_unit x -> is_finite (fmul x (f64_of_Z w)) = true /\ (0 <= B2R (fmul x (f64_of_Z w)) <= IZR w)%R /\ 0 <= render_coord x w <= w.
Proof.
  intros Hw [F B]. destruct (of_Z_R w ltac:(lia)) as [Fw Ew]. assert (Bw : (1 <= IZR w <= IZR (2 ^ 24))%R) by (split; apply IZR_le; lia).
  assert (E24 : IZR (2 ^ 24) = bpow radix2 24) by (apply (IZR_Zpower radix2 24); lia).
  destruct (fmul_R x _ F Fw) as [Fm Em]; [apply Rle_trans with (bpow radix2 24); [rewrite Ew, <- E24; apply Rabs_le; split; nra|apply bpow_le; lia]|].
  assert (Q : (0 <= B2R (fmul x (f64_of_Z w)) <= IZR w)%R).
  { rewrite Em, Ew. split; [rewrite <- rnd_0; apply rnd_le; nra|]. rewrite <- (rnd_Z w) at 2 by lia. apply rnd_le. nra. }
  split; [exact Fm|]. split; [exact Q|]. unfold render_coord. set (y := fmul x (f64_of_Z w)) in *. clearbody y.
  destruct (fround_R y Fm) as [F' E]. pose proof (Znearest_half (Zle_bool 0) (B2R y)) as N. fold (ZnearestA (B2R y)) in N. apply Rabs_le_inv in N.
  assert (L : 0 <= ZnearestA (B2R y) <= w) by (split; apply Z.lt_succ_r; apply lt_IZR; rewrite succ_IZR; lra).
  rewrite (go_int_small _ w); [|exact F'| |lia].
  - rewrite E, Ztrunc_IZR. exact L.
  - rewrite E, <- abs_IZR. apply IZR_le. lia.
Qed.
Lemma render_in p w h : 1 <= w <= 2 ^ 24 -> 1 <= h <= 2 ^ 24 -> pt_in_unit p -> in_image w h (render_point p w h).
Proof. intros Hw Hh [Hx Hy]. split; [exact (proj2 (proj2 (coord_in _ _ Hw Hx)))|exact (proj2 (proj2 (coord_in _ _ Hh Hy)))]. Qed.

Theorem C72_rounding : forall p w h, 1 <= w <= 32767 -> 1 <= h <= 32767 -> pt_in_unit p -> rounds_alike w h p ->
  create_point (nx p) (ny p) w h = render_point p w h.
Proof.
  intros p w h Hw Hh [Hx Hy] [Nx Ny].
  assert (G : forall x w, 1 <= w <= 32767 -> in_unit x -> fmul x (f64_of_Z w) <> f64_dy (2 ^ 53 - 1) (-54) -> i16 (fast_round (fmul x (f64_of_Z w))) = render_coord x w).
  { intros x v Hv Hu N. destruct (coord_in x v ltac:(lia) Hu) as (F & B & R). rewrite fast_round_is_round; [|exact F| |exact N].
    - fold (render_coord x v). apply i16_small. lia.
    - split; [apply B|]. apply Rle_trans with (IZR v); [apply B|]. apply Rle_trans with (IZR (2 ^ 51)); [apply IZR_le; lia|]. rewrite <- (IZR_Zpower radix2 51) by lia. apply Rle_refl. }
  unfold create_point, render_point. rewrite !G by assumption. reflexivity.
Qed.
Print Assumptions C72_rounding.

(** * Drawing does not fail *)
Theorem C72_renders : forall del pts im ix, good_image im -> 1 <= i_w im <= 2 ^ 24 -> 1 <= i_h im <= 2 ^ 24 -> Forall pt_in_unit pts ->
  del (draw_group pts (i_w im) (i_h im)) = Some ix -> index_list (length pts) ix ->
  exists ts out, triangulate del pts (i_w im) (i_h im) = Some ts /\ triangles_on_image ts im = Some out /\
    length out = (length ix / 3)%nat /\ Forall (fun d => rgb_unit (td_color d)) out.
Proof.
  intros del pts im ix G Hw Hh U E H. destruct (C72_triangulate del pts (i_w im) (i_h im) ix E H) as (ts & T & P). exists ts.
  destruct (C22_triangles_on_image im ts G Hw Hh) as (out & O & F).
  { apply Forall_forall. intros t I. rewrite <- (map_length (fun p => render_point p (i_w im) (i_h im)) pts) in H. destruct (picks_in _ _ _ t H P I) as (A & B & C).
    assert (K : forall q, In q (map (fun p => render_point p (i_w im) (i_h im)) pts) -> 0 <= px q <= i_w im /\ 0 <= py q <= i_h im).
    { intros q J. apply in_map_iff in J. destruct J as (p & <- & J). apply render_in; [exact Hw|exact Hh|]. rewrite Forall_forall in U. apply U, J. }
    repeat constructor; apply K; assumption. }
  exists out. split; [exact T|]. split; [exact O|]. split.
  - rewrite <- (proj1 P). clear -F. induction F; cbn; congruence.
  - clear -F. induction F as [|t d ts out [_ K] F IH]; constructor; auto.
Qed.
Print Assumptions C72_renders.

(** * Drawn and scored triangles *)
Lemma alone_sub Q Q' a b c : (forall p, In p Q' -> In p Q) -> alone Q a b c -> alone Q' a b c.
Proof. intros S A p I. apply A, S, I. Qed.

(** A scored triangle with no other point on its circumcircle is drawn. *)
Theorem C72_scored_is_drawn : forall w h Q d ts, delaunay_triangulation w h Q d -> delaunay_of Q ts ->
  forall t, In t (iter_triangles d) -> alone Q (d_a t) (d_b t) (d_c t) ->
  exists u, In u ts /\ same_corners (d_a t) (d_b t) (d_c t) (ta u) (tb u) (tc u).
Proof.
  intros w h Q d ts D T t I A. destruct (del_corners _ _ _ _ D t I) as (Ia & Ib & Ic).
  assert (J : In t (used d)) by (unfold iter_triangles, used in *; rewrite filter_In in *; destruct I as [I K]; apply andb_prop in K; tauto).
  pose proof (del_area _ _ _ _ D t J) as N. pose proof (centroid_inside _ _ _ N) as C.
  destruct (do_cover _ _ T _ _ 3 _ _ _ eq_refl Ia Ib Ic C) as (u & Iu & W). exists u. split; [exact Iu|]. destruct (do_corners _ _ T u Iu) as (Ja & Jb & Jc).
  assert (K : forall p, In p [ta u; tb u; tc u] -> In p Q) by (intros p [<-|[<-|[<-|[]]]]; assumption).
  apply (same_triangle _ _ 3 _ _ _ _ _ _ eq_refl N (do_area _ _ T u Iu) C W).
  - intros p Ip. apply (del_empty _ _ _ _ D t p J), K, Ip.
  - intros p Ip. apply (do_empty _ _ T u p Iu). destruct Ip as [<-|[<-|[<-|[]]]]; assumption.
  - exact (alone_sub Q _ _ _ _ K A).
Qed.
Print Assumptions C72_scored_is_drawn.

(** A location inside a triangle between points of the image is inside the enclosing triangle. *)
Lemma inside_super w h a b c X Y M : size_ok w h -> in_image w h a -> in_image w h b -> in_image w h c -> 0 < M -> loc_inside X Y M a b c ->
  let s := new_super_triangle w h in loc_inside X Y M (d_a s) (d_b s) (d_c s).
Proof.
  intros S Ia Ib Ic HM I. cbv zeta.
  apply (sup_inner w h _ S) in Ia. apply (sup_inner w h _ S) in Ib. apply (sup_inner w h _ S) in Ic. unfold inner, inside in Ia, Ib, Ic. rewrite !oloc_at in Ia, Ib, Ic.
  assert (SV := S). destruct S as (S1 & S2 & S3). destruct (L_Super.super_vertices w h) as (A & B & C); [lia..|]. rewrite A, B, C. unfold sup in Ia, Ib, Ic. cbn [ta tb tc] in Ia, Ib, Ic.
  set (u := L_Super.sA w h) in *. set (v := L_Super.sB w h) in *. set (z := L_Super.sC w h) in *. clearbody u v z.
  assert (G : forall e f, 0 < orient e f a -> 0 < orient e f b -> 0 < orient e f c -> 0 < orient_at X Y M e f).
  { intros e f Ha Hb Hc.
    assert (E : orient a b c * orient_at X Y M e f = orient_at X Y M b c * orient e f a + orient_at X Y M c a * orient e f b + orient_at X Y M a b * orient e f c).
    { unfold orient, orient_at. ring. }
    pose proof (orient_sum X Y M a b c) as O. destruct I as [(P1 & P2 & P3)|(P1 & P2 & P3)].
    - pose proof (Z.mul_pos_pos _ _ P2 Ha). pose proof (Z.mul_pos_pos _ _ P3 Hb). pose proof (Z.mul_pos_pos _ _ P1 Hc).
      assert (0 < orient a b c) by (apply (Z.mul_pos_cancel_l M); lia). apply (Z.mul_pos_cancel_l (orient a b c)); lia.
    - pose proof (Z.mul_neg_pos _ _ P2 Ha). pose proof (Z.mul_neg_pos _ _ P3 Hb). pose proof (Z.mul_neg_pos _ _ P1 Hc).
      assert (0 < - orient a b c) by (apply (Z.mul_pos_cancel_l M); lia). apply (Z.mul_pos_cancel_l (- orient a b c)); lia. }
  right. assert (OP : forall e f, orient_at X Y M e f = - orient_at X Y M f e) by (intros; unfold orient_at; ring).
  rewrite (OP u v), (OP v z), (OP z u). destruct Ia as (? & ? & ?), Ib as (? & ? & ?), Ic as (? & ? & ?).
  pose proof (G u z). pose proof (G z v). pose proof (G v u). lia.
Qed.

(** A drawn triangle with no other point and no corner of the enclosing triangle in or on
    its circumcircle is scored. *)
Theorem C72_drawn_is_scored : forall w h Q d ts, usual_size w h -> Forall (in_image w h) Q -> delaunay_triangulation w h Q d -> delaunay_of Q ts ->
  forall u, In u ts -> alone (framed w h Q) (ta u) (tb u) (tc u) ->
  exists t, In t (iter_triangles d) /\ same_corners (ta u) (tb u) (tc u) (d_a t) (d_b t) (d_c t).
Proof.
  intros w h Q d ts Sz IQ D T u Iu A. destruct (do_corners _ _ T u Iu) as (Ja & Jb & Jc). rewrite Forall_forall in IQ.
  pose proof (do_area _ _ T u Iu) as N. pose proof (centroid_inside _ _ _ N) as C.
  pose proof (L_Score.small_ok _ _ (usual_small _ _ Sz)) as S.
  pose proof (inside_super w h _ _ _ _ _ 3 S (IQ _ Ja) (IQ _ Jb) (IQ _ Jc) eq_refl C) as CS.
  destruct (del_cover _ _ _ _ D _ _ 3 eq_refl CS) as (l1 & t & l2 & E & W & _).
  assert (J : In t (used d)) by (rewrite E; apply in_or_app; right; left; reflexivity).
  assert (K : forall p, In p [d_a t; d_b t; d_c t] -> In p (framed w h Q)).
  { intros p Ip. unfold framed. destruct (del_frame _ _ _ _ D t p J Ip) as [V|V]; [right; right; right; exact V|]. cbv zeta in V. destruct V as [V|[V|[V|[]]]]; [left|right; left|right; right; left]; exact V. }
  assert (SC : same_corners (ta u) (tb u) (tc u) (d_a t) (d_b t) (d_c t)).
  { apply (same_triangle _ _ 3 _ _ _ _ _ _ eq_refl N (del_area _ _ _ _ D t J) C W).
    - intros p Ip H. assert (CC : in_closed_circumcircle (ta u) (tb u) (tc u) p) by (destruct H as (X & Y & M & H1 & H2 & H3 & H4); exists X, Y, M; repeat split; auto; lia).
      pose proof (A p (K p Ip) CC) as V. apply (do_empty _ _ T u p Iu); [|exact H]. destruct V as [<-|[<-|[<-|[]]]]; assumption.
    - intros p Ip. apply (del_empty _ _ _ _ D t p J). destruct Ip as [<-|[<-|[<-|[]]]]; assumption.
    - exact (alone_sub (framed w h Q) _ _ _ _ K A). }
  exists t. split; [|exact SC].
  assert (V : forall p, In p [d_a t; d_b t; d_c t] -> In p Q) by (intros p Ip; apply SC in Ip; destruct Ip as [<-|[<-|[<-|[]]]]; assumption).
  apply (del_shown _ _ _ _ D t J); apply V; cbn; auto.
Qed.
Print Assumptions C72_drawn_is_scored.

(** * Whole runs *)
Lemma program_unit im bs fi srt cutoff n l pow2 c i : image_function im bs fi -> hull_sort srt -> Z.of_nat l <= 32765 -> cutoff <> 0%nat -> (1 <= pow2 <= 62)%nat ->
  simple_program fi srt cutoff n l pow2 c -> (i < n)%nat -> Forall pt_in_unit (nth i (members c) []).
Proof.
  intros Him Hs Hl Hc Hk R Hi. pose proof (program_inv im bs fi srt cutoff n l pow2 Him Hs Hl Hc Hk c R) as I.
  destruct (P_Algo.C30_simple_shape _ cutoff n l _ Hc (pi_hist _ _ _ _ _ _ _ I)) as (L & G & _). apply (G (nth i (members c) [])). apply nth_In.
  rewrite L. exact Hi.
Qed.

(** A member whose fitness is that of a Delaunay triangulation of its rounded points. *)
Lemma member_drawn im bs fi pts f d : image_function im bs fi -> Forall pt_in_unit pts -> Forall (rounds_alike (fi_w fi) (fi_h fi)) pts ->
  delaunay_triangulation (fi_w fi) (fi_h fi) (map (mut_point fi) pts) d -> plain_fitness fi d = Some f ->
  forall del ts, triangulate del pts (fi_w fi) (fi_h fi) = Some ts -> let Q := map (fun p => render_point p (fi_w fi) (fi_h fi)) pts in delaunay_of Q ts ->
  exists d, delaunay_triangulation (fi_w fi) (fi_h fi) Q d /\ plain_fitness fi d = Some f /\
    (forall t, In t (iter_triangles d) -> alone Q (d_a t) (d_b t) (d_c t) -> exists u, In u ts /\ same_corners (d_a t) (d_b t) (d_c t) (ta u) (tb u) (tc u)) /\
    (forall u, In u ts -> alone (framed (fi_w fi) (fi_h fi) Q) (ta u) (tb u) (tc u) -> exists t, In t (iter_triangles d) /\ same_corners (ta u) (tb u) (tc u) (d_a t) (d_b t) (d_c t)).
Proof.
  intros Him U RA DT F del ts T Q D.
  pose proof (im_usual im bs fi Him) as Us. assert (B : 1 <= fi_w fi <= 32767 /\ 1 <= fi_h fi <= 32767) by (unfold usual_size in Us; lia).
  assert (E : map (mut_point fi) pts = Q).
  { unfold Q. apply map_ext_in. intros p Ip. rewrite Forall_forall in U, RA. apply C72_rounding; [apply B|apply B|apply U, Ip|apply RA, Ip]. }
  rewrite E in DT. exists d. split; [exact DT|]. split; [exact F|]. split.
  - exact (C72_scored_is_drawn _ _ Q d ts DT D).
  - apply (C72_drawn_is_scored _ _ Q d ts Us); [|exact DT|exact D]. apply Forall_forall. intros q J. unfold Q in J. apply in_map_iff in J. destruct J as (p & <- & J).
    rewrite Forall_forall in U. apply render_in; [lia|lia|apply U, J].
Qed.
(** In every state of a run, for every member: the fitness is that of a triangulation [d],
    the triangles of [d] with no other point on their circumcircle are among those that
    Triangulate returns for the member, and the latter are triangles of [d] if there is no
    other point and no corner of the enclosing triangle in or on their circumcircle. *)
Theorem C72_run : forall im bs fi srt cutoff n l pow2 c i, image_function im bs fi -> hull_sort srt -> Z.of_nat l <= 32765 -> cutoff <> 0%nat -> (1 <= pow2 <= 62)%nat ->
  simple_program fi srt cutoff n l pow2 c -> (i < n)%nat -> let pts := nth i (members c) [] in Forall (rounds_alike (fi_w fi) (fi_h fi)) pts ->
  forall del ts, triangulate del pts (fi_w fi) (fi_h fi) = Some ts -> let Q := map (fun p => render_point p (fi_w fi) (fi_h fi)) pts in delaunay_of Q ts ->
  exists d, delaunay_triangulation (fi_w fi) (fi_h fi) Q d /\ plain_fitness fi d = Some (nth i (c_fits c) f0) /\
    (forall t, In t (iter_triangles d) -> alone Q (d_a t) (d_b t) (d_c t) -> exists u, In u ts /\ same_corners (d_a t) (d_b t) (d_c t) (ta u) (tb u) (tc u)) /\
    (forall u, In u ts -> alone (framed (fi_w fi) (fi_h fi) Q) (ta u) (tb u) (tc u) -> exists t, In t (iter_triangles d) /\ same_corners (ta u) (tb u) (tc u) (d_a t) (d_b t) (d_c t)).
Proof.
  intros im bs fi srt cutoff n l pow2 c i Him Hs Hl Hc Hk R Hi pts RA.
  pose proof (program_unit im bs fi srt cutoff n l pow2 c i Him Hs Hl Hc Hk R Hi) as U. fold pts in U.
  destruct (C59_simple im bs fi srt cutoff n l pow2 c Him Hs Hl Hc Hk R i Hi) as (id & t & d & _ & _ & _ & DT & F).
  exact (member_drawn im bs fi pts _ d Him U RA DT F).
Qed.
Print Assumptions C72_run.
(** The same for the modified genetic algorithm and the members it has evaluated: the first
    ones, with Best at their head, and all others with a positive fitness. *)
Lemma genetic_unit im bs fi srt cutoff n l pow2 g i : image_function im bs fi -> hull_sort srt -> Z.of_nat l <= 32765 -> cutoff <> 0%nat -> (2 * cutoff <= n)%nat -> (1 <= pow2 <= 62)%nat ->
  genetic_run fi srt cutoff n l pow2 g -> (i < n)%nat -> Forall pt_in_unit (nth i (members (g_core g)) []).
Proof.
  intros Him Hs Hl Hc H2 Hk R Hi. pose proof (g_run_inv im bs fi srt cutoff n l pow2 Him Hs Hl Hc H2 Hk g R) as I.
  destruct (P_Algo.C30_genetic_shape _ cutoff n l _ Hc (qi_hist _ _ _ _ _ _ _ I)) as (L & G & _). apply (G (nth i (members (g_core g)) [])). apply nth_In.
  rewrite L. exact Hi.
Qed.
Theorem C72_genetic : forall im bs fi srt cutoff n l pow2 g i, image_function im bs fi -> hull_sort srt -> Z.of_nat l <= 32765 -> cutoff <> 0%nat -> (2 * cutoff <= n)%nat -> (1 <= pow2 <= 62)%nat ->
  genetic_run fi srt cutoff n l pow2 g -> let c := g_core g in (i < cutoff)%nat \/ ((i < n)%nat /\ flt f0 (nth i (c_fits c) f0) = true) ->
  let pts := nth i (members c) [] in Forall (rounds_alike (fi_w fi) (fi_h fi)) pts ->
  forall del ts, triangulate del pts (fi_w fi) (fi_h fi) = Some ts -> let Q := map (fun p => render_point p (fi_w fi) (fi_h fi)) pts in delaunay_of Q ts ->
  exists d, delaunay_triangulation (fi_w fi) (fi_h fi) Q d /\ plain_fitness fi d = Some (nth i (c_fits c) f0) /\
    (forall t, In t (iter_triangles d) -> alone Q (d_a t) (d_b t) (d_c t) -> exists u, In u ts /\ same_corners (d_a t) (d_b t) (d_c t) (ta u) (tb u) (tc u)) /\
    (forall u, In u ts -> alone (framed (fi_w fi) (fi_h fi) Q) (ta u) (tb u) (tc u) -> exists t, In t (iter_triangles d) /\ same_corners (ta u) (tb u) (tc u) (d_a t) (d_b t) (d_c t)).
Proof.
  intros im bs fi srt cutoff n l pow2 g i Him Hs Hl Hc H2 Hk R c Hi pts RA.
  pose proof (genetic_unit im bs fi srt cutoff n l pow2 g i Him Hs Hl Hc H2 Hk R ltac:(lia)) as U. fold c pts in U.
  destruct (C59_genetic im bs fi srt cutoff n l pow2 g Him Hs Hl Hc H2 Hk R) as [A B].
  assert (K : keeps_delaunay fi (c_ev c) i pts (nth i (c_fits c) f0)).
  { destruct Hi as [Hi|[Hi P]]; [exact (B i Hi)|]. destruct (A i Hi) as [K|K]; [exact K|]. fold c in K. rewrite K in P. discriminate. }
  destruct K as (id & t & d & _ & _ & _ & DT & F). exact (member_drawn im bs fi pts _ d Him U RA DT F).
Qed.
Print Assumptions C72_genetic.

(** * Concrete triangulations *)
Definition emptyb (Q : list point) (t : tri) : bool := (0 <? orient (ta t) (tb t) (tc t)) && forallb (fun p => negb (0 <? incirc (ta t) (tb t) (tc t) p)) Q.
Lemma emptyb_ok Q t : emptyb Q t = true -> orient (ta t) (tb t) (tc t) <> 0 /\ forall p, In p Q -> ~ in_circumcircle (ta t) (tb t) (tc t) p.
Proof.
  unfold emptyb. intros H. apply andb_prop in H. destruct H as [H1 H2]. apply Z.ltb_lt in H1. split; [lia|]. intros p Ip C. apply circle_strict in C; [|exact H1].
  rewrite forallb_forall in H2. specialize (H2 p Ip). apply negb_true_iff in H2. apply Z.ltb_ge in H2. lia.
Qed.
Definition aloneb (Q : list point) (a b c : point) : bool := (0 <? orient a b c) && forallb (fun p => negb (0 <=? incirc a b c p) || existsb (peq p) [a; b; c]) Q.
Lemma aloneb_ok Q a b c : aloneb Q a b c = true -> alone Q a b c.
Proof.
  unfold aloneb. intros H p Ip C. apply andb_prop in H. destruct H as [H1 H2]. apply Z.ltb_lt in H1. apply circle_closed in C; [|exact H1].
  rewrite forallb_forall in H2. specialize (H2 p Ip). apply orb_prop in H2. destruct H2 as [H2|H2].
  - apply negb_true_iff in H2. apply Z.leb_gt in H2. lia.
  - apply existsb_exists in H2. destruct H2 as (q & Iq & E). apply L_GMap.peq_true in E. subst q. exact Iq.
Qed.
Lemma inserted_delaunay w h ps Q d : usual_size w h -> valid_ops w h [] (map MAdd ps) Q -> history insertion_sort w h (map MAdd ps) = Some d -> delaunay_triangulation w h Q d.
Proof.
  intros S V E. destruct (history_is _ _ _ _ _ _ S insertion_sorts_hulls V E) as [S' O]. apply (state_delaunay w h Q d d Q S' O); [|apply Permutation_refl]. repeat split; reflexivity.
Qed.

(** The quadrangle a b c d cut along a c. *)
Definition quad (a b c d : point) : list tri := [Tri a b c; Tri a c d].

(** A nearly flat triangle is drawn but not scored: its circumcircle is so large that it
    contains a corner of the enclosing triangle, and nothing at all is scored. *)
Definition flat : list point := [Pt 0 0; Pt 100 0; Pt 50 1].
Lemma flat_ops : valid_ops 100 100 [] (map MAdd flat) (rev flat).
Proof. repeat constructor; cbn; lia. Qed.
Lemma flat_iter : match history insertion_sort 100 100 (map MAdd flat) with Some d => match iter_triangles d with [] => true | _ => false end | None => false end = true.
Proof. vm_compute. reflexivity. Qed.
Lemma flat_drawn : delaunay_of (rev flat) [Tri (Pt 0 0) (Pt 100 0) (Pt 50 1)].
Proof.
  assert (E : emptyb (rev flat) (Tri (Pt 0 0) (Pt 100 0) (Pt 50 1)) = true) by (vm_compute; reflexivity).
  constructor.
  - intros t [<-|[]]. cbn. auto.
  - intros t [<-|[]]. apply (emptyb_ok _ _ E).
  - intros t p [<-|[]]. apply (emptyb_ok _ _ E).
  - intros X Y M a b c HM Ia Ib Ic H. eexists. split; [left; reflexivity|]. cbn [ta tb tc]. cbn in Ia, Ib, Ic.
    destruct Ia as [<-|[<-|[<-|[]]]]; destruct Ib as [<-|[<-|[<-|[]]]]; destruct Ic as [<-|[<-|[<-|[]]]]; unfold loc_inside, loc_within, orient_at in *; cbn [px py] in *; lia.
Qed.
Theorem C72_flat_refuted : exists w h Q d ts u, usual_size w h /\ Forall (in_image w h) Q /\ delaunay_triangulation w h Q d /\ delaunay_of Q ts /\
  In u ts /\ alone Q (ta u) (tb u) (tc u) /\ iter_triangles d = [].
Proof.
  destruct (history insertion_sort 100 100 (map MAdd flat)) as [d|] eqn:E.
  - exists 100, 100, (rev flat), d, [Tri (Pt 0 0) (Pt 100 0) (Pt 50 1)], (Tri (Pt 0 0) (Pt 100 0) (Pt 50 1)).
    assert (S : usual_size 100 100) by (unfold usual_size; lia). split; [exact S|]. split; [repeat constructor; cbn; lia|].
    split; [exact (inserted_delaunay _ _ _ _ _ S flat_ops E)|]. split; [exact flat_drawn|]. split; [left; reflexivity|]. split.
    + apply aloneb_ok. vm_compute. reflexivity.
    + pose proof flat_iter as K. rewrite E in K. destruct (iter_triangles d); [reflexivity|discriminate].
  - exfalso. pose proof flat_iter as K. rewrite E in K. discriminate.
Qed.
Print Assumptions C72_flat_refuted.

(** With four points on a circle the drawn and the scored triangles need not be the same:
    a square is scored cut along one diagonal, and cut along the other it is as good a
    Delaunay triangulation. *)
Definition square : list point := [Pt 40 40; Pt 60 40; Pt 60 60; Pt 40 60].
Lemma square_ops : valid_ops 100 100 [] (map MAdd square) (rev square).
Proof. repeat constructor; cbn; lia. Qed.
Definition corner_triples (d : delaunay) : list (point * point * point) := map (fun t => (d_a t, d_b t, d_c t)) (iter_triangles d).
Lemma square_iter : match history insertion_sort 100 100 (map MAdd square) with Some d => corner_triples d | None => [] end =
  [(Pt 40 40, Pt 60 40, Pt 40 60); (Pt 60 40, Pt 60 60, Pt 40 60)].
Proof. vm_compute. reflexivity. Qed.
Lemma quad_drawn a b c d : let Q := rev [a; b; c; d] in emptyb Q (Tri a b c) && emptyb Q (Tri a c d) = true ->
  (forall X Y M p q r, 0 < M -> In p Q -> In q Q -> In r Q -> loc_inside X Y M p q r -> loc_within X Y M a b c \/ loc_within X Y M a c d) ->
  delaunay_of Q (quad a b c d).
Proof.
  intros Q E C. apply andb_prop in E. destruct E as [E1 E2]. constructor.
  - intros t [<-|[<-|[]]]; cbn; auto 6.
  - intros t [<-|[<-|[]]]; [apply (emptyb_ok _ _ E1)|apply (emptyb_ok _ _ E2)].
  - intros t p [<-|[<-|[]]]; [apply (emptyb_ok _ _ E1)|apply (emptyb_ok _ _ E2)].
  - intros X Y M p q r HM Ip Iq Ir H. destruct (C X Y M p q r HM Ip Iq Ir H) as [W|W]; [exists (Tri a b c)|exists (Tri a c d)]; (split; [cbn; auto|exact W]).
Qed.
Lemma square_drawn : delaunay_of (rev square) (quad (Pt 40 40) (Pt 60 40) (Pt 60 60) (Pt 40 60)).
Proof.
  apply (quad_drawn (Pt 40 40) (Pt 60 40) (Pt 60 60) (Pt 40 60)); [vm_compute; reflexivity|]. intros X Y M a b c HM Ia Ib Ic H. cbn in Ia, Ib, Ic.
  destruct Ia as [<-|[<-|[<-|[<-|[]]]]]; destruct Ib as [<-|[<-|[<-|[<-|[]]]]]; destruct Ic as [<-|[<-|[<-|[<-|[]]]]]; unfold loc_inside, loc_within, orient_at in *; cbn [px py] in *; lia.
Qed.
Theorem C72_square_refuted : exists w h Q d ts, usual_size w h /\ Forall (in_image w h) Q /\ delaunay_triangulation w h Q d /\ delaunay_of Q ts /\ iter_triangles d <> [] /\
  forall t u, In t (iter_triangles d) -> In u ts -> ~ same_corners (d_a t) (d_b t) (d_c t) (ta u) (tb u) (tc u).
Proof.
  pose proof square_iter as K. destruct (history insertion_sort 100 100 (map MAdd square)) as [d|] eqn:E; [|discriminate].
  exists 100, 100, (rev square), d, (quad (Pt 40 40) (Pt 60 40) (Pt 60 60) (Pt 40 60)).
  assert (S : usual_size 100 100) by (unfold usual_size; lia). split; [exact S|]. split; [repeat constructor; cbn; lia|].
  split; [exact (inserted_delaunay _ _ _ _ _ S square_ops E)|]. split; [exact square_drawn|]. split; [intros N; unfold corner_triples in K; rewrite N in K; discriminate|].
  intros t u It Iu SC. apply (in_map (fun t => (d_a t, d_b t, d_c t))) in It. unfold corner_triples in K. rewrite K in It.
  assert (G : In (Pt 40 40) [ta u; tb u; tc u] /\ In (Pt 60 60) [ta u; tb u; tc u]) by (destruct Iu as [<-|[<-|[]]]; cbn; auto).
  destruct G as [G1 G2]. apply SC in G1. apply SC in G2. destruct It as [It|[It|[]]]; injection It as A B C; rewrite <- A, <- B, <- C in G1, G2; cbn in G1, G2; intuition discriminate.
Qed.
Print Assumptions C72_square_refuted.

(** Four points of a 100x100 image, triangulated by a third party that returns the indices
    of the two triangles: both are drawn, and both are scored. *)
Definition four : list point := [Pt 20 20; Pt 80 25; Pt 75 80; Pt 15 70].
Definition four_del : list npoint -> option (list Z) := fun _ => Some [1; 2; 3; 1; 3; 0].
Lemma four_ops : valid_ops 100 100 [] (map MAdd four) (rev four).
Proof. repeat constructor; cbn; lia. Qed.
Lemma four_triangulate : triangulate four_del (map (to_norm 100 100) four) 100 100 = Some (quad (Pt 80 25) (Pt 75 80) (Pt 15 70) (Pt 20 20)).
Proof. vm_compute. reflexivity. Qed.
Lemma four_drawn : delaunay_of (rev [Pt 80 25; Pt 75 80; Pt 15 70; Pt 20 20]) (quad (Pt 80 25) (Pt 75 80) (Pt 15 70) (Pt 20 20)).
Proof.
  apply quad_drawn; [vm_compute; reflexivity|]. intros X Y M a b c HM Ia Ib Ic H. cbn in Ia, Ib, Ic.
  destruct Ia as [<-|[<-|[<-|[<-|[]]]]]; destruct Ib as [<-|[<-|[<-|[<-|[]]]]]; destruct Ic as [<-|[<-|[<-|[<-|[]]]]]; unfold loc_inside, loc_within, orient_at in *; cbn [px py] in *; lia.
Qed.
Lemma four_alone : forallb (fun u => aloneb (framed 100 100 (rev four)) (ta u) (tb u) (tc u)) (quad (Pt 80 25) (Pt 75 80) (Pt 15 70) (Pt 20 20)) = true.
Proof. vm_compute. reflexivity. Qed.
Lemma delaunay_of_perm Q Q' ts : (forall p, In p Q <-> In p Q') -> delaunay_of Q ts -> delaunay_of Q' ts.
Proof.
  intros E [A B C D]. constructor; [intros t I; rewrite <- !E; apply A, I|exact B|intros t p I J; apply C, E, J; exact I|].
  intros X Y M a b c HM Ia Ib Ic. apply D; [exact HM|apply E, Ia|apply E, Ib|apply E, Ic].
Qed.
Example C72_case : exists d ts, triangulate four_del (map (to_norm 100 100) four) 100 100 = Some ts /\ length ts = 2%nat /\
  delaunay_of (rev four) ts /\ delaunay_triangulation 100 100 (rev four) d /\ length (iter_triangles d) = 2%nat /\
  forall u, In u ts -> exists t, In t (iter_triangles d) /\ same_corners (ta u) (tb u) (tc u) (d_a t) (d_b t) (d_c t).
Proof.
  assert (K : match history insertion_sort 100 100 (map MAdd four) with Some d => length (iter_triangles d) | None => 0%nat end = 2%nat) by (vm_compute; reflexivity).
  destruct (history insertion_sort 100 100 (map MAdd four)) as [d|] eqn:E; [|discriminate].
  assert (S : usual_size 100 100) by (unfold usual_size; lia). pose proof (inserted_delaunay _ _ _ _ _ S four_ops E) as DT.
  assert (DO : delaunay_of (rev four) (quad (Pt 80 25) (Pt 75 80) (Pt 15 70) (Pt 20 20))) by (apply (delaunay_of_perm (rev [Pt 80 25; Pt 75 80; Pt 15 70; Pt 20 20])); [intros p; cbn; tauto|exact four_drawn]).
  eexists d, _. split; [exact four_triangulate|]. split; [reflexivity|]. split; [exact DO|]. split; [exact DT|]. split; [exact K|].
  intros u Iu. apply (C72_drawn_is_scored 100 100 (rev four) d (quad (Pt 80 25) (Pt 75 80) (Pt 15 70) (Pt 20 20)) S); [repeat constructor; cbn; lia|exact DT|exact DO|exact Iu|].
  apply aloneb_ok. pose proof four_alone as A. rewrite forallb_forall in A. apply A, Iu.
Qed.
