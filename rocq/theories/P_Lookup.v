(** C44: the look-ups of the circumcircle grid. *)
From Coq Require Import ZArith List Bool Lia Permutation.
From Verif Require Import GoNum M_Norm M_Slice M_Geom S_Geom M_Image M_Raster S_Raster M_Delaunay S_Delaunay
  L_GMap L_Plane L_BW L_Toggle L_Insert L_Circle L_Hist L_Lookup L_Tiles.
Import ListNotations.
Open Scope Z_scope.

(** C44: after any insertions into a triangulation of an image of at most 1920x1920
    pixels, the cell of any image point lists every triangle in use whose closed
    circumcircle contains the point - although the circle is stored in float32 and
    its box is computed with rounded divisions. *)
Theorem C44_complete : forall w h ps d p, 1 <= w <= 1920 -> 1 <= h <= 1920 -> 2 <= Z.max w h ->
  Forall (in_image w h) ps -> Z.of_nat (length ps) <= 32765 -> inserts w h ps = Some d -> in_image w h p ->
  forall i t, znth (d_tris d) i = Some t -> px (d_a t) <> -1 -> in_closed_circumcircle (d_a t) (d_b t) (d_c t) p ->
  exists l, group (d_grid d) p = Some l /\ In i l.
Proof.
  intros w h ps d p Hw Hh Hm F L E Hp i t Ei Fi C.
  assert (S : small_size w h) by (unfold small_size; lia). assert (S' : size_ok w h) by (unfold size_ok; lia).
  destruct (inserts_ok w h ps) as (d' & E' & O); [unfold good_size; lia|exact F|apply small_lookups; assumption|exact L|].
  assert (EQ : d' = d) by (rewrite E in E'; injection E' as <-; reflexivity). subst d'.
  apply (complete_finds w h (rev ps) d p S' O Hp (small_complete w h _ d p S O Hp) i t Ei); [|exact C].
  apply Z.eqb_neq. exact Fi.
Qed.
Print Assumptions C44_complete.

(** A case that uses it: circles with radius above 8192, where adding 0.001 to the
    float32 radius adds less than 0.001. *)
Definition flat : list point := [Pt 959 0; Pt 961 0; Pt 963 0].
Definition lookup_size (w h : Z) (ps : list point) (p : point) : option nat :=
  match inserts w h ps with None => None | Some d => option_map (@length Z) (group (d_grid d) p) end.
Example flat_lookup : lookup_size 1920 1920 flat (Pt 962 0) = Some 7%nat.
Proof. vm_compute. reflexivity. Qed.

(** For larger images the look-ups can fail: (4035,0) is strictly inside the circle of
    the triangle of (4034,0), (4036,0) and a corner of the enclosing triangle; its
    float32 radius is above 32768, where adding 0.001 has no effect. *)
Definition near : list point := [Pt 4034 0; Pt 4036 0].
Definition middle : point := Pt 4035 0.
Definition missed (d : delaunay) (p : point) : bool :=
  existsb (fun i => match nth_error (d_tris d) i, group (d_grid d) p with
    | Some t, Some l => negb (is_freed t) && negb (existsb (Z.eqb (Z.of_nat i)) l) &&
        (if orient (d_a t) (d_b t) (d_c t) <? 0 then incirc (d_b t) (d_a t) (d_c t) p >? 0 else (orient (d_a t) (d_b t) (d_c t) >? 0) && (incirc (d_a t) (d_b t) (d_c t) p >? 0))
    | _, _ => false end) (seq 0 (length (d_tris d))).
Lemma missed_spec d p : missed d p = true -> exists i t l, nth_error (d_tris d) i = Some t /\ is_freed t = false /\
  in_circumcircle (d_a t) (d_b t) (d_c t) p /\ group (d_grid d) p = Some l /\ ~ In (Z.of_nat i) l.
Proof.
  unfold missed. intros H. apply existsb_exists in H. destruct H as (i & _ & H).
  destruct (nth_error (d_tris d) i) as [t|] eqn:Ei; [|discriminate]. destruct (group (d_grid d) p) as [l|] eqn:El; [|discriminate].
  apply andb_prop in H. destruct H as [H H3]. apply andb_prop in H. destruct H as [H1 H2]. apply negb_true_iff in H1, H2.
  exists i, t, l. repeat split; try assumption; try reflexivity.
  - destruct (Z.ltb_spec (orient (d_a t) (d_b t) (d_c t)) 0) as [Q|Q].
    + apply in_circumcircle_swap. apply circle_strict; [rewrite orient_flip; lia|]. apply Z.gtb_lt in H3. exact H3.
    + apply andb_prop in H3. destruct H3 as [H3 H4]. apply Z.gtb_lt in H3, H4. apply circle_strict; assumption.
  - intros I. assert (existsb (Z.eqb (Z.of_nat i)) l = true); [|congruence]. apply existsb_exists. exists (Z.of_nat i). split; [exact I|apply Z.eqb_refl].
Qed.
Theorem C44_large_refuted : exists w h ps d p, good_size w h /\ Forall (in_image w h) (p :: ps) /\ inserts w h ps = Some d /\
  exists i t l, nth_error (d_tris d) i = Some t /\ is_freed t = false /\ in_circumcircle (d_a t) (d_b t) (d_c t) p /\
  group (d_grid d) p = Some l /\ ~ In (Z.of_nat i) l.
Proof.
  exists 8190, 8190, near. destruct (inserts 8190 8190 near) as [d|] eqn:E.
  - exists d, middle. split; [unfold good_size; lia|]. split; [repeat constructor; cbn; lia|]. split; [reflexivity|].
    apply missed_spec. assert (K : match inserts 8190 8190 near with Some d => missed d middle | None => false end = true) by (vm_compute; reflexivity).
    rewrite E in K. exact K.
  - exfalso. assert (K : match inserts 8190 8190 near with Some _ => true | None => false end = true) by (vm_compute; reflexivity). rewrite E in K. discriminate.
Qed.
Print Assumptions C44_large_refuted.

(** So C45 and C46 fail on large images: after inserting that point it lies strictly
    inside the circle of a triangle in use, and an edge of that triangle has no
    triangle on its other side although it joins two inserted points. *)
Definition broken (d : delaunay) : bool :=
  existsb (fun t => negb (is_freed t) && peq (d_b t) (Pt 4034 0) && peq (d_c t) (Pt 4036 0) && (orient (d_a t) (d_b t) (d_c t) <? 0) && (incirc (d_b t) (d_a t) (d_c t) middle >? 0)) (d_tris d) &&
  forallb (fun t => is_freed t || negb ((has_vertex t (Pt 4034 0) && has_vertex t (Pt 4036 0)) &&
     ((py (d_a t) >? 0) || (py (d_b t) >? 0) || (py (d_c t) >? 0)))) (d_tris d).
Theorem C45_large_refuted : exists w h ps d, good_size w h /\ Forall (in_image w h) ps /\ inserts w h ps = Some d /\
  exists t p, In t (d_tris d) /\ is_freed t = false /\ In p ps /\ in_circumcircle (d_a t) (d_b t) (d_c t) p.
Proof.
  exists 8190, 8190, (near ++ [middle]). destruct (inserts 8190 8190 (near ++ [middle])) as [d|] eqn:E.
  - exists d. split; [unfold good_size; lia|]. split; [repeat constructor; cbn; lia|]. split; [reflexivity|].
    assert (K : match inserts 8190 8190 (near ++ [middle]) with Some d => broken d | None => false end = true) by (vm_compute; reflexivity).
    rewrite E in K. unfold broken in K. apply andb_prop in K. destruct K as [K _]. apply existsb_exists in K. destruct K as (t & I & K).
    apply andb_prop in K. destruct K as [K K5]. apply andb_prop in K. destruct K as [K K4]. apply andb_prop in K. destruct K as [K _]. apply andb_prop in K. destruct K as [K1 _].
    exists t, middle. split; [exact I|]. split; [apply negb_true_iff, K1|]. split; [cbn; auto|].
    apply Z.ltb_lt in K4. apply Z.gtb_lt in K5. apply in_circumcircle_swap. apply circle_strict; [rewrite orient_flip; lia|exact K5].
  - exfalso. assert (K : match inserts 8190 8190 (near ++ [middle]) with Some _ => true | None => false end = true) by (vm_compute; reflexivity). rewrite E in K. discriminate.
Qed.
Print Assumptions C45_large_refuted.

Theorem C46_large_refuted : exists w h ps d a b, good_size w h /\ Forall (in_image w h) ps /\ inserts w h ps = Some d /\ In a ps /\ In b ps /\
  (exists t, In t (d_tris d) /\ is_freed t = false /\ left_of a b t) /\
  forall u, In u (d_tris d) -> is_freed u = false -> ~ left_of b a u.
Proof.
  exists 8190, 8190, (near ++ [middle]). destruct (inserts 8190 8190 (near ++ [middle])) as [d|] eqn:E.
  - exists d, (Pt 4036 0), (Pt 4034 0). split; [unfold good_size; lia|]. split; [repeat constructor; cbn; lia|]. split; [reflexivity|].
    split; [cbn; auto|]. split; [cbn; auto|].
    assert (K : match inserts 8190 8190 (near ++ [middle]) with Some d => broken d | None => false end = true) by (vm_compute; reflexivity).
    rewrite E in K. unfold broken in K. apply andb_prop in K. destruct K as [K K0]. apply existsb_exists in K. destruct K as (t & I & K).
    apply andb_prop in K. destruct K as [K K5]. apply andb_prop in K. destruct K as [K K4]. apply andb_prop in K. destruct K as [K K3]. apply andb_prop in K. destruct K as [K1 K2].
    apply peq_true in K2, K3. apply Z.ltb_lt in K4. split.
    + exists t. split; [exact I|]. split; [apply negb_true_iff, K1|]. exists (d_a t). rewrite K2, K3 in *. split.
      * eapply perm_trans; [apply perm_rot|]. apply perm_swap.
      * rewrite orient_flip, orient_rot. lia.
    + intros u Iu Fu (c & Pm & O). rewrite forallb_forall in K0. specialize (K0 u Iu). rewrite Fu in K0. cbn [orb] in K0. apply negb_true_iff in K0.
      assert (C : py c > 0) by (revert O; unfold orient; cbn [px py]; lia).
      assert (C' : (py c >? 0) = true) by (apply Z.gtb_lt; lia).
      apply perm3 in Pm. destruct Pm as [Q|[Q|[Q|[Q|[Q|Q]]]]]; injection Q; intros Q3 Q2 Q1; unfold has_vertex in K0; rewrite Q1, Q2, Q3, C', !peq_refl, ?orb_true_r in K0; discriminate.
  - exfalso. assert (K : match inserts 8190 8190 (near ++ [middle]) with Some _ => true | None => false end = true) by (vm_compute; reflexivity). rewrite E in K. discriminate.
Qed.
Print Assumptions C46_large_refuted.
