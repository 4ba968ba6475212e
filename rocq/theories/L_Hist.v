(** Histories of insertions. *)
From Coq Require Import ZArith List Bool Lia Permutation.
From Verif Require Import GoNum M_Norm M_Slice M_Geom S_Geom M_Image M_Raster S_Raster M_Delaunay S_Delaunay
  L_Raster1 L_Raster6 L_PMap L_GMap L_Super L_Slots L_Slots2 L_Plane L_BW L_Toggle L_Count L_Insert L_Circle.
Import ListNotations.
Open Scope Z_scope.

(** NewDelaunay(w, h) and then Insert for each point. *)
Definition inserts (w h : Z) (ps : list point) : option delaunay :=
  match new_delaunay w h with None => None | Some d => foldM insert ps d end.

(** The cell of p lists every triangle in use whose closed circumcircle contains p. *)
Definition grid_finds (d : delaunay) (p : point) : Prop :=
  forall i t, znth (d_tris d) i = Some t -> is_freed t = false ->
    in_closed_circumcircle (d_a t) (d_b t) (d_c t) p -> exists l, group (d_grid d) p = Some l /\ In i l.

(** ... at every insertion of the history. *)
Fixpoint grid_finds_all (d : delaunay) (ps : list point) : Prop :=
  match ps with
  | [] => True
  | p :: t => grid_finds d p /\ match insert d p with None => True | Some d' => grid_finds_all d' t end
  end.
Definition lookups_ok (w h : Z) (ps : list point) : Prop :=
  match new_delaunay w h with None => True | Some d => grid_finds_all d ps end.

Lemma good_size_ok w h : good_size w h -> size_ok w h.
Proof. unfold good_size, size_ok. intros (A & B & C). repeat split; lia. Qed.

Lemma live_pos w h P d t : dstate_ok w h P d -> In t (live (d_tris d)) -> pos (ccw t).
Proof. intros O I. eapply Forall_forall; [apply (t_pos _ _ (dt_tiling _ _ _ (ds_del _ _ _ _ O)))|]. apply in_map, I. Qed.

Lemma finds_complete w h P d p : dstate_ok w h P d -> grid_finds d p -> lookup_complete d p.
Proof.
  intros O G t I J. pose proof (live_pos _ _ _ _ _ O I) as Pt. apply live_znth in I. destruct I as (i & Ei & Fi).
  apply (ccw_closed t p Pt) in J. destruct (G i t Ei Fi J) as (l & El & Il). unfold group in El.
  destruct (point_cell (d_grid d) p) as [x y]. apply (s_cell _ _ _ _ (ds_slots _ _ _ _ O) x y l i El) in Il.
  destruct Il as (u & Eu & _ & B). rewrite Ei in Eu. injection Eu as <-. exact B.
Qed.

Lemma inserts_from w h ps : size_ok w h -> forall P d, dstate_ok w h P d -> Forall (in_image w h) ps -> grid_finds_all d ps ->
  Z.of_nat (length P) + Z.of_nat (length ps) <= 32765 ->
  exists d', foldM insert ps d = Some d' /\ dstate_ok w h (rev ps ++ P) d'.
Proof.
  intros S. induction ps as [|p ps IH]; intros P d O F G L; cbn [foldM grid_finds_all] in *.
  - exists d. auto.
  - inversion F; subst. cbn [length] in L. destruct G as [G1 G2].
    destruct (insert_ok w h P d p S O) as (d1 & E & O1); [assumption|eapply finds_complete; eauto| | |].
    + unfold mult. pose proof (count_occ_bound point_eq_dec p P). lia.
    + unfold distinct. pose proof (NoDup_incl_length (NoDup_nodup point_eq_dec (p :: P)) (l' := p :: P) (fun x I => proj1 (nodup_In _ _ _) I)). cbn [length] in *. lia.
    + rewrite E in *. destruct (IH (p :: P) d1 O1) as (d2 & E2 & O2); [assumption|assumption|cbn [length]; lia|].
      exists d2. split; [exact E2|]. cbn [rev]. rewrite <- app_assoc. exact O2.
Qed.

Lemma inserts_eq w h ps d : new_delaunay w h = Some d -> inserts w h ps = foldM insert ps d.
Proof. unfold inserts. intros ->. reflexivity. Qed.
Lemma lookups_eq w h ps d : new_delaunay w h = Some d -> lookups_ok w h ps -> grid_finds_all d ps.
Proof. unfold lookups_ok. intros ->. auto. Qed.
Theorem inserts_ok w h ps : good_size w h -> Forall (in_image w h) ps -> lookups_ok w h ps -> Z.of_nat (length ps) <= 32765 ->
  exists d, inserts w h ps = Some d /\ dstate_ok w h (rev ps) d.
Proof.
  intros S F G L. apply good_size_ok in S. destruct (new_delaunay_ok w h S) as (d & E & O). rewrite (inserts_eq _ _ _ _ E).
  apply (lookups_eq _ _ _ _ E) in G.
  destruct (inserts_from w h ps S [] d O F G) as (d' & E' & O'); [change (Z.of_nat (length (@nil point))) with 0; lia|]. rewrite app_nil_r in O'. eauto.
Qed.

(** Deciding [grid_finds_all] by computation, for examples. *)
Definition grid_findsb (d : delaunay) (p : point) : bool :=
  match group (d_grid d) p with
  | None => false
  | Some l => forallb (fun i => match nth_error (d_tris d) i with
                                | None => false
                                | Some t => is_freed t || (orient (d_a t) (d_b t) (d_c t) =? 0) || (tinc (ccw t) p <? 0) || existsb (Z.eqb (Z.of_nat i)) l
                                end) (seq 0 (length (d_tris d)))
              && forallb (fun t => is_freed t || negb (orient (d_a t) (d_b t) (d_c t) =? 0)) (d_tris d)
  end.
Fixpoint grid_finds_allb (d : delaunay) (ps : list point) : bool :=
  match ps with
  | [] => true
  | p :: t => grid_findsb d p && match insert d p with None => false | Some d' => grid_finds_allb d' t end
  end.
Definition lookups_okb (w h : Z) (ps : list point) : bool :=
  match new_delaunay w h with None => false | Some d => grid_finds_allb d ps end.

Lemma ccw_pos t : orient (d_a t) (d_b t) (d_c t) <> 0 -> pos (ccw t).
Proof. unfold ccw, pos. intros H. destruct (Z.ltb_spec (orient (d_a t) (d_b t) (d_c t)) 0); cbn [ta tb tc]; [rewrite orient_swap|]; lia. Qed.

Lemma grid_findsb_ok d p : grid_findsb d p = true -> grid_finds d p.
Proof.
  unfold grid_findsb, grid_finds. destruct (group (d_grid d) p) as [l|]; [|discriminate]. intros H i t Ei Fi C. apply andb_prop in H. destruct H as [H H2].
  exists l. split; [reflexivity|]. apply znth_Some in Ei. destruct Ei as [Hi Ei].
  rewrite forallb_forall in H. specialize (H (Z.to_nat i)). rewrite Ei, Fi in H.
  assert (N : orient (d_a t) (d_b t) (d_c t) <> 0).
  { rewrite forallb_forall in H2. specialize (H2 t (nth_error_In _ _ Ei)). rewrite Fi in H2. cbn [orb] in H2. apply negb_true_iff, Z.eqb_neq in H2. exact H2. }
  assert (LT : (Z.to_nat i < length (d_tris d))%nat) by (apply nth_error_Some; congruence).
  specialize (H ltac:(apply in_seq; lia)). cbn [orb] in H.
  apply (ccw_closed t p (ccw_pos t N)) in C.
  rewrite (proj2 (Z.eqb_neq _ _) N) in H. destruct (Z.ltb_spec (tinc (ccw t) p) 0); [lia|]. cbn [orb] in H.
  apply existsb_exists in H. destruct H as (j & Ij & Ej). apply Z.eqb_eq in Ej. replace i with j by lia. exact Ij.
Qed.
Lemma grid_finds_allb_ok ps : forall d, grid_finds_allb d ps = true -> grid_finds_all d ps.
Proof.
  induction ps as [|p ps IH]; intros d H; cbn [grid_finds_all grid_finds_allb] in *; [exact I|]. apply andb_prop in H. destruct H as [H1 H2].
  split; [apply grid_findsb_ok, H1|]. destruct (insert d p); [apply IH, H2|discriminate].
Qed.
Lemma lookups_okb_ok w h ps : lookups_okb w h ps = true -> lookups_ok w h ps.
Proof. unfold lookups_okb, lookups_ok. destruct (new_delaunay w h); [apply grid_finds_allb_ok|discriminate]. Qed.
