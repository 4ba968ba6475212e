(** Consequences of [dstate_ok] in the vocabulary of the specification. *)
From Coq Require Import ZArith List Bool Lia Permutation.
From Verif Require Import GoNum M_Norm M_Slice M_Geom S_Geom M_Image M_Raster S_Raster M_Delaunay S_Delaunay
  L_Raster1 L_Raster2 L_Raster4 L_Raster6 L_PMap L_GMap L_Super L_Slots L_Slots2 L_Plane L_BW L_Toggle L_Count L_Insert L_Circle L_Hist.
Import ListNotations.
Open Scope Z_scope.

(** t has the side a b and lies left of it. *)
Definition left_of (a b : point) (t : dtri) : Prop := exists c, Permutation [d_a t; d_b t; d_c t] [a; b; c] /\ 0 < orient a b c.

Lemma orient_rot a b c : orient b c a = orient a b c. Proof. unfold orient; ring. Qed.
Lemma orient_flip a b c : orient b a c = - orient a b c. Proof. unfold orient; ring. Qed.

Lemma perm3 {A} (x y z a b c : A) : Permutation [x; y; z] [a; b; c] ->
  (x, y, z) = (a, b, c) \/ (x, y, z) = (a, c, b) \/ (x, y, z) = (b, a, c) \/ (x, y, z) = (b, c, a) \/ (x, y, z) = (c, a, b) \/ (x, y, z) = (c, b, a).
Proof.
  intros P. assert (I : In x [a; b; c]) by (eapply Permutation_in; [exact P|left; reflexivity]).
  assert (T : forall p q : A, Permutation [y; z] [p; q] -> (y, z) = (p, q) \/ (y, z) = (q, p)).
  { intros p q H. apply Permutation_length_2 in H. destruct H as [[-> ->]|[-> ->]]; auto. }
  destruct I as [<-|[<-|[<-|[]]]].
  - apply Permutation_cons_inv in P. destruct (T _ _ P) as [E|E]; injection E as -> ->; auto 10.
  - assert (P' : Permutation [b; y; z] [b; a; c]) by (rewrite P; apply perm_swap). apply Permutation_cons_inv in P'. destruct (T _ _ P') as [E|E]; injection E as -> ->; auto 10.
  - assert (P' : Permutation [c; y; z] [c; a; b]) by (rewrite P; apply (Permutation_app_comm [a; b] [c])). apply Permutation_cons_inv in P'. destruct (T _ _ P') as [E|E]; injection E as -> ->; auto 10.
Qed.

Lemma perm_rot {A} (x y z : A) : Permutation [x; y; z] [y; z; x].
Proof. apply (Permutation_cons_append [y; z] x). Qed.
Lemma left_of_edge t a b : orient (d_a t) (d_b t) (d_c t) <> 0 -> (left_of a b t <-> In (a, b) (tedges (ccw t))).
Proof.
  intros N. unfold left_of, ccw. split.
  - intros (c & P & H). apply perm3 in P. pose proof (orient_rot a b c) as Q1. pose proof (orient_rot b c a) as Q2. pose proof (orient_flip a b c) as Q3.
    pose proof (orient_rot b a c) as Q4. pose proof (orient_rot a c b) as Q5.
    destruct P as [E|[E|[E|[E|[E|E]]]]]; injection E; intros E3 E2 E1; rewrite E1, E2, E3 in *;
      match goal with |- context [?o <? 0] => destruct (Z.ltb_spec o 0) end; try lia; cbn; auto.
  - destruct (Z.ltb_spec (orient (d_a t) (d_b t) (d_c t)) 0) as [L|L]; cbn [tedges ta tb tc]; intros I.
    + assert (G : 0 < orient (d_b t) (d_a t) (d_c t)) by (rewrite orient_flip; lia).
      assert (P0 : Permutation [d_a t; d_b t; d_c t] [d_b t; d_a t; d_c t]) by apply perm_swap.
      destruct I as [E|[E|[E|[]]]]; injection E as <- <-.
      * exists (d_c t). split; [exact P0|exact G].
      * exists (d_b t). split; [rewrite P0; apply perm_rot|]. rewrite orient_rot. exact G.
      * exists (d_a t). split; [rewrite P0, perm_rot; apply perm_rot|]. rewrite <- orient_rot. exact G.
    + assert (G : 0 < orient (d_a t) (d_b t) (d_c t)) by lia.
      destruct I as [E|[E|[E|[]]]]; injection E as <- <-.
      * exists (d_c t). split; [reflexivity|exact G].
      * exists (d_a t). split; [apply perm_rot|]. rewrite orient_rot. exact G.
      * exists (d_b t). split; [rewrite perm_rot; apply perm_rot|]. rewrite <- orient_rot. exact G.
Qed.

Lemma loc_inside_ccw X Y M t : 0 < M -> pos (ccw t) -> (loc_inside X Y M (d_a t) (d_b t) (d_c t) <-> inside (Loc X Y M) (ccw t)).
Proof.
  intros HM HP. unfold loc_inside, inside, ccw, pos in *. change orient_at with (fun X Y M a b => oloc a b (Loc X Y M)). cbv beta.
  pose proof (bary_sum (d_a t) (d_b t) (d_c t) (Loc X Y M)) as S. cbn [lm] in S.
  destruct (Z.ltb_spec (orient (d_a t) (d_b t) (d_c t)) 0) as [L|L]; cbn [ta tb tc] in *.
  - rewrite (oloc_swap (d_a t) (d_b t)), (oloc_swap (d_c t) (d_a t)), (oloc_swap (d_b t) (d_c t)). split; [|lia]. intros [H|H]; [nia|lia].
  - split; [|lia]. intros [H|H]; [lia|nia].
Qed.
Lemma loc_within_ccw X Y M t : within (Loc X Y M) (ccw t) -> loc_within X Y M (d_a t) (d_b t) (d_c t).
Proof.
  unfold loc_within, within, ccw. change orient_at with (fun X Y M a b => oloc a b (Loc X Y M)). cbv beta.
  destruct (Z.ltb_spec (orient (d_a t) (d_b t) (d_c t)) 0) as [L|L]; cbn [ta tb tc].
  - rewrite (oloc_swap (d_a t) (d_b t)), (oloc_swap (d_c t) (d_a t)), (oloc_swap (d_b t) (d_c t)). lia.
  - lia.
Qed.

Section State.
Context (w h : Z) (P : list point) (d : delaunay) (S : size_ok w h) (O : dstate_ok w h P d).
Let T := map ccw (live (d_tris d)).
Let DT : delaunay_tiling (sup w h) P T := ds_del _ _ _ _ O.

Lemma st_nondeg t : In t (live (d_tris d)) -> orient (d_a t) (d_b t) (d_c t) <> 0.
Proof. intros I E. pose proof (live_pos _ _ _ _ _ O I) as Q. unfold ccw, pos in Q. rewrite E in Q. cbn in Q. rewrite E in Q. lia. Qed.

Lemma st_empty t p : In t (live (d_tris d)) -> In p P -> ~ in_circumcircle (d_a t) (d_b t) (d_c t) p.
Proof.
  intros I J C. apply (ccw_circle t p (live_pos _ _ _ _ _ O I)) in C.
  pose proof (dt_empty _ _ _ DT (ccw t) p (in_map ccw _ _ I) ltac:(apply in_or_app; auto)). lia.
Qed.
Lemma sup_in_super v : In v (verts (sup w h)) <-> In v [d_a (new_super_triangle w h); d_b (new_super_triangle w h); d_c (new_super_triangle w h)].
Proof.
  destruct (super_vertices w h) as (A & B & C); [destruct S as (? & ? & ?); lia..|]. rewrite A, B, C. unfold sup, verts. cbn. tauto.
Qed.
Lemma st_empty_super t v : In t (live (d_tris d)) -> In v (verts (sup w h)) -> ~ in_circumcircle (d_a t) (d_b t) (d_c t) v.
Proof.
  intros I J C. apply (ccw_circle t v (live_pos _ _ _ _ _ O I)) in C.
  pose proof (dt_empty _ _ _ DT (ccw t) v (in_map ccw _ _ I) ltac:(apply in_or_app; auto)). lia.
Qed.

Lemma st_covers X Y M : 0 < M -> (let s := new_super_triangle w h in loc_inside X Y M (d_a s) (d_b s) (d_c s)) ->
  exists l1 t l2, live (d_tris d) = l1 ++ t :: l2 /\ loc_within X Y M (d_a t) (d_b t) (d_c t) /\ forall u, In u (l1 ++ l2) -> ~ loc_inside X Y M (d_a u) (d_b u) (d_c u).
Proof.
  intros HM H. set (q := Loc X Y M). assert (HQ : 0 < lm q) by exact HM.
  assert (IS : inside q (sup w h)).
  { pose proof (sup_pos w h S) as PS. pose proof (super_ccw w h S) as EC.
    assert (PC : pos (ccw (new_super_triangle w h))) by (rewrite EC; unfold pos, sup in *; cbn [ta tb tc] in *; unfold orient in *; lia).
    apply (loc_inside_ccw X Y M _ HM PC) in H. rewrite EC in H. unfold inside, sup in *. cbn [ta tb tc] in *. tauto. }
  destruct (tiling_covers _ _ q (dt_tiling _ _ _ DT) HQ IS) as (t' & I & W & Wi).
  unfold T in I. apply in_map_iff in I. destruct I as (t & <- & I). apply in_split in I. destruct I as (l1 & l2 & E).
  exists l1, t, l2. split; [exact E|]. split; [apply loc_within_ccw, Wi|]. intros u Iu C.
  assert (Iu' : In u (live (d_tris d))) by (rewrite E; apply in_app_or in Iu; apply in_or_app; cbn; tauto).
  apply (loc_inside_ccw X Y M u HM (live_pos _ _ _ _ _ O Iu')) in C. apply (inside_wind q _ HQ) in C. destruct C as [_ C].
  pose proof (tiling_winds _ _ q (dt_tiling _ _ _ DT)) as WT. pose proof (wind_01 q _ HQ (sup_pos w h S)).
  pose proof (t_pos _ _ (dt_tiling _ _ _ DT)) as PT. unfold T in WT, PT. rewrite E in WT, PT. rewrite map_app in WT, PT. cbn [map] in WT, PT. rewrite winds_app, winds_cons in WT.
  apply Forall_app in PT. destruct PT as [P1 P2]. inversion P2 as [|? ? _ P3]; subst.
  pose proof (winds_nonneg q _ HQ P1). pose proof (winds_nonneg q _ HQ P3).
  apply in_app_or in Iu. destruct Iu as [Iu|Iu]; [pose proof (winds_In q _ (ccw u) HQ P1 (in_map ccw _ _ Iu))|pose proof (winds_In q _ (ccw u) HQ P3 (in_map ccw _ _ Iu))]; lia.
Qed.

Lemma st_side_once l1 t l2 a b : live (d_tris d) = l1 ++ t :: l2 -> left_of a b t -> forall u, In u (l1 ++ l2) -> ~ left_of a b u.
Proof.
  intros E L u Iu L'.
  assert (Iu' : In u (live (d_tris d))) by (rewrite E; apply in_app_or in Iu; apply in_or_app; cbn; tauto).
  assert (It : In t (live (d_tris d))) by (rewrite E; apply in_or_app; cbn; tauto).
  apply (left_of_edge t a b (st_nondeg t It)) in L. apply (left_of_edge u a b (st_nondeg u Iu')) in L'.
  pose proof (tiling_edges_once _ _ a b (dt_tiling _ _ _ DT)) as C. unfold T in C. rewrite E, map_app in C. cbn [map] in C. rewrite flat_map_app in C. cbn [flat_map] in C.
  rewrite !count_app in C. apply in_count in L.
  pose proof (count_nonneg (edge_eqb (a, b)) (flat_map tedges (map ccw l1))). pose proof (count_nonneg (edge_eqb (a, b)) (flat_map tedges (map ccw l2))).
  assert (G : forall l, In u l -> 1 <= count (edge_eqb (a, b)) (flat_map tedges (map ccw l))).
  { intros l J. apply in_count, in_flat_map. exists (ccw u). split; [apply in_map, J|exact L']. }
  apply in_app_or in Iu. destruct Iu as [Iu|Iu]; apply G in Iu; lia.
Qed.
Lemma st_neighbour t a b : In t (live (d_tris d)) -> left_of a b t ->
  (exists u, In u (live (d_tris d)) /\ left_of b a u) \/ (In a (verts (sup w h)) /\ In b (verts (sup w h))).
Proof.
  intros It L. apply (left_of_edge t a b (st_nondeg t It)) in L.
  destruct (tiling_neighbour _ _ a b (dt_tiling _ _ _ DT)) as [N|N].
  - apply in_flat_map. exists (ccw t). split; [apply in_map, It|exact L].
  - left. apply in_flat_map in N. destruct N as (t' & I & J). unfold T in I. apply in_map_iff in I. destruct I as (u & <- & Iu). exists u. split; [exact Iu|].
    apply (left_of_edge u b a (st_nondeg u Iu)), J.
  - right. cbn in N. unfold verts. destruct N as [E|[E|[E|[]]]]; injection E as <- <-; cbn; auto.
Qed.

Lemma iter_live t : In t (iter_triangles d) <-> In t (live (d_tris d)) /\ touches_super d t = false.
Proof. unfold iter_triangles, live. rewrite !filter_In, andb_true_iff, !negb_true_iff. tauto. Qed.

Lemma peq_refl v : peq v v = true. Proof. unfold peq. now rewrite !Z.eqb_refl. Qed.
Lemma st_visible t v : In t (iter_triangles d) -> In v [d_a t; d_b t; d_c t] -> In v P.
Proof.
  intros I J. apply iter_live in I. destruct I as [I N].
  pose proof (dt_verts _ _ _ DT (ccw t) v (in_map ccw _ _ I)) as V. rewrite ccw_verts in V. specialize (V ltac:(cbn in J; intuition auto)).
  apply in_app_or in V. destruct V as [V|V]; [|exact V]. exfalso. apply sup_in_super in V. unfold touches_super in N. rewrite (ds_super _ _ _ _ O) in N.
  set (s := new_super_triangle w h) in *. apply orb_false_iff in N. destruct N as [N N3]. apply orb_false_iff in N. destruct N as [N1 N2].
  assert (G : has_vertex t v = true) by (unfold has_vertex; cbn in J; destruct J as [<-|[<-|[<-|[]]]]; rewrite peq_refl, ?orb_true_r; reflexivity).
  destruct V as [<-|[<-|[<-|[]]]]; congruence.
Qed.
Lemma st_used p : In p P -> exists t, In t (live (d_tris d)) /\ In p [d_a t; d_b t; d_c t].
Proof.
  intros I. destruct (dt_used _ _ _ DT p I) as (t' & J & V). unfold T in J. apply in_map_iff in J. destruct J as (t & <- & J). exists t. split; [exact J|].
  apply ccw_verts in V. cbn. intuition auto.
Qed.

(** The pixels of the visible triangles. *)
Definition dpix (t : dtri) : list (Z * Z) := dda_pixels (Tri (d_a t) (d_b t) (d_c t)).
Lemma dpix_ccw t : dda_pixels (ccw t) = dpix t.
Proof.
  unfold dpix, ccw. destruct (_ <? 0); [|reflexivity]. unfold dda_pixels. f_equal. apply dda_lines_perm. cbn. apply perm_swap.
Qed.
Lemma in_boxes t : In t (live (d_tris d)) -> in_box 15 (ccw t).
Proof.
  intros I v V. apply ccw_verts in V. pose proof (ds_corners _ _ _ _ _ O I) as (A & B & C).
  assert (K : okv w h v) by (destruct V as [-> |[-> | ->]]; assumption). apply (okv_coord w h v S) in K. change (2 ^ 15) with 32768. lia.
Qed.
Lemma sup_box : in_box 15 (sup w h).
Proof. intros v V. assert (K : okv w h v) by (left; exact V). apply (okv_coord w h v S) in K. change (2 ^ 15) with 32768. lia. Qed.

Lemma pixel_eqb_eq a b : pixel_eqb a b = true <-> a = b.
Proof. destruct a as [x y], b as [u v]. unfold pixel_eqb. cbn. rewrite andb_true_iff, !Z.eqb_eq. split; [intros [-> ->]; reflexivity|intros [= -> ->]; auto]. Qed.
Lemma NoDup_count (l : list (Z * Z)) : (forall x y, count (pixel_eqb (x, y)) l <= 1) -> NoDup l.
Proof.
  induction l as [|[x y] l IH]; intros H; constructor.
  - intros I. specialize (H x y). rewrite count_cons in H. rewrite (proj2 (pixel_eqb_eq _ _) eq_refl) in H. cbn [b2z] in H.
    assert (G : forall l', In (x, y) l' -> 1 <= count (pixel_eqb (x, y)) l'); [|specialize (G l I); lia].
    clear. induction l' as [|e l' IH']; [intros []|]. rewrite count_cons. pose proof (count_nonneg (pixel_eqb (x, y)) l'). intros [->|J].
    + rewrite (proj2 (pixel_eqb_eq _ _) eq_refl). cbn [b2z]. lia.
    + specialize (IH' J). unfold b2z. destruct (pixel_eqb (x, y) e); lia.
  - apply IH. intros a b. specialize (H a b). rewrite count_cons in H. unfold b2z in H. destruct (pixel_eqb (a, b) (x, y)); lia.
Qed.

Lemma st_coverage x y : coverage (map ccw (live (d_tris d))) x y <= 1.
Proof.
  assert (F : Forall (fun t => in_box 15 t /\ 0 < tarea t) (map ccw (live (d_tris d)))).
  { apply Forall_forall. intros t' I. apply in_map_iff in I. destruct I as (t & <- & I). split; [apply in_boxes, I|].
    pose proof (live_pos _ _ _ _ _ O I) as Q. unfold pos in Q. rewrite orient_area2 in Q. exact Q. }
  assert (F' : Forall (fun t => in_box 15 t /\ 0 < tarea t) [sup w h]).
  { constructor; [|constructor]. split; [apply sup_box|]. pose proof (sup_pos w h S) as Q. unfold pos in Q. rewrite orient_area2 in Q. exact Q. }
  rewrite (watertight _ _ F F' (t_net _ _ (dt_tiling _ _ _ DT))). apply coverage_single.
Qed.

Lemma count_filter {A} (f : Z * Z -> bool) (g : A -> list (Z * Z)) q (l : list A) : count f (flat_map g (filter q l)) <= count f (flat_map g l).
Proof.
  induction l as [|a l IH]; cbn [filter flat_map]; [lia|]. pose proof (count_nonneg f (g a)). destruct (q a); cbn [flat_map]; rewrite ?count_app; lia.
Qed.
Lemma iter_filter : iter_triangles d = filter (fun t => negb (touches_super d t)) (live (d_tris d)).
Proof.
  unfold iter_triangles, live. generalize (d_tris d) as l. clear. induction l as [|t l IH]; [reflexivity|]. cbn [filter]. destruct (negb (is_freed t)); cbn [andb filter]; [|exact IH].
  destruct (negb (touches_super d t)); rewrite IH; reflexivity.
Qed.
Lemma st_pixels : NoDup (flat_map dpix (iter_triangles d)).
Proof.
  apply NoDup_count. intros x y. rewrite iter_filter. etransitivity; [apply count_filter|]. etransitivity; [|apply (st_coverage x y)].
  unfold coverage. apply Z.eq_le_incl. f_equal. generalize (live (d_tris d)) as l. clear. induction l as [|t l IH]; [reflexivity|]. cbn [map flat_map]. now rewrite dpix_ccw, IH.
Qed.
End State.
