(** Slots, free list and grid along every history of insertions and removals. *)
From Coq Require Import ZArith List Bool Lia Permutation.
From Verif Require Import GoNum M_Norm M_Slice M_Geom S_Geom M_Image M_Raster S_Raster M_Delaunay S_Delaunay
  L_Raster1 L_Raster6 L_PMap L_GMap L_Super L_Slots L_Slots2 L_Plane L_BW L_Toggle L_Count L_Insert.
Import ListNotations.
Open Scope Z_scope.

(** States reached by successful operations that keep at most 65536 slots, with the
    multiset of points inserted and not removed. *)
Inductive reach (w h : Z) : list point -> delaunay -> Prop :=
| reach_new d : new_delaunay w h = Some d -> reach w h [] d
| reach_insert P d p d' : reach w h P d -> in_image w h p -> mult P p < 65535 ->
    insert d p = Some d' -> Z.of_nat (length (d_tris d')) <= 65536 -> reach w h (p :: P) d'
| reach_remove P d sort p P' d' : reach w h P d -> in_image w h p -> take_out p P = Some P' -> (forall l l', sort l = Some l' -> Permutation l l') ->
    remove sort d p = Some d' -> Z.of_nat (length (d_tris d')) <= 65536 -> reach w h P' d'.

Record rstate_ok (w h : Z) (d : delaunay) : Prop := {
  rs_slots : slots_ok 10 (d_tris d) (d_grid d) (d_free d);
  rs_geo : geo_ok w h (d_grid d);
  rs_corners : forall t, In t (live (d_tris d)) -> corners_ok w h t;
  rs_own : forall t, In t (live (d_tris d)) -> d_circ t = calc_circumcircle (d_a t) (d_b t) (d_c t);
  rs_super : d_super d = new_super_triangle w h }.
Record counts_ok (P : list point) (d : delaunay) : Prop := {
  co_pm : pm_ok (d_pmap d) P;
  co_num : d_num d = Z.of_nat (length P);
  co_unique : d_unique d = Z.of_nat (length (nodup point_eq_dec P)) }.

(** Additions that end with at most 65536 slots. *)
Lemma grid_add_geo g t i g' : grid_add g t i = Some g' -> same_geo g g'.
Proof.
  unfold grid_add. set (f := on_cell _). assert (H : forall l g g', foldM f l g = Some g' -> same_geo g g'); [|apply H].
  induction l as [|xy l IH]; intros g0 g1; cbn [foldM]; [intros [= <-]; apply same_geo_refl|].
  destruct (f g0 xy) as [g2|] eqn:E; [|discriminate]. intros H. eapply same_geo_trans; [|apply IH, H].
  unfold f, on_cell in E. destruct (cell g0 (fst xy) (snd xy)) as [c|]; [|discriminate]. unfold set_cell in E.
  destruct (znth (g_cells g0) (fst xy)); [|discriminate]. destruct (zset l0 (snd xy) _); [|discriminate]. destruct (zset (g_cells g0) _ _); [|discriminate].
  injection E as <-. repeat split.
Qed.
Lemma zset_length {A} (l l' : list A) i v : zset l i v = Some l' -> length l' = length l.
Proof. unfold zset. destruct (znth l i); [|discriminate]. intros [= <-]. apply set_nth_length. Qed.
Lemma add_triangle_length tris g free t tris' g' free' : add_triangle tris g free t = Some (tris', g', free') -> (length tris <= length tris')%nat.
Proof.
  unfold add_triangle. destruct free as [|i free].
  - destruct (grid_add g t _); [|discriminate]. intros [= <- <- <-]. rewrite app_length. lia.
  - destruct (zset tris i t) eqn:E; [|discriminate]. destruct (grid_add g t i); [|discriminate]. intros [= <- <- <-]. apply zset_length in E. lia.
Qed.
Definition add1 (st : list dtri * grid * list Z) (t : dtri) := let '(tris, g, free) := st in add_triangle tris g free t.
Lemma add1_length l : forall tris g free tris' g' free', foldM add1 l (tris, g, free) = Some (tris', g', free') -> (length tris <= length tris')%nat.
Proof.
  induction l as [|t l IH]; intros tris g free tris' g' free'; cbn [foldM]; [intros [= <- <- <-]; lia|].
  destruct (add1 (tris, g, free) t) as [[[t1 g1] f1]|] eqn:E; [|discriminate]. intros H. apply IH in H. apply add_triangle_length in E. lia.
Qed.
Lemma add1_ok K l : forall tris g free tris' g' free', slots_ok K tris g free -> (forall t, In t l -> is_freed t = false) ->
  foldM add1 l (tris, g, free) = Some (tris', g', free') -> Z.of_nat (length tris') <= 65536 ->
  slots_ok K tris' g' free' /\ same_geo g g' /\ Permutation (live tris') (l ++ live tris).
Proof.
  induction l as [|t l IH]; intros tris g free tris' g' free' S0 F E L; cbn [foldM] in E.
  - injection E as <- <- <-. split; [exact S0|]. split; [apply same_geo_refl|reflexivity].
  - destruct (add1 (tris, g, free) t) as [[[t1 g1] f1]|] eqn:E1; [|discriminate].
    pose proof (add1_length _ _ _ _ _ _ _ E) as L1. assert (L2 : free = [] -> Z.of_nat (length tris) < 65536).
    { intros ->. unfold add1, add_triangle in E1. destruct (grid_add g t _); [|discriminate]. injection E1 as <- <- <-. rewrite app_length in L1. cbn [length] in L1. lia. }
    destruct (add_triangle_ok K tris g free t S0 (F t (or_introl eq_refl)) L2) as (t2 & g2 & f2 & E2 & S2 & G2 & P2 & _).
    unfold add1 in E1. rewrite E2 in E1. injection E1 as <- <- <-.
    destruct (IH _ _ _ _ _ _ S2 (fun u I => F u (or_intror I)) E L) as (S3 & G3 & P3). split; [exact S3|]. split; [eapply same_geo_trans; eauto|].
    rewrite P3, P2. cbn. apply Permutation_sym, Permutation_middle.
Qed.

(** The edges collected are edges of removed triangles. *)
Lemma add_edge_In es f e : In e (add_edge es f) -> e = f \/ In e es.
Proof.
  unfold add_edge. destruct (find_index (edge_eq f) es) as [k|] eqn:E.
  - intros I. right. apply find_index_Some in E. destruct E as (a & En & _). eapply Permutation_in; [apply swap_delete_perm, En|right; exact I].
  - intros I. apply in_app_or in I. destruct I as [I|[<-|[]]]; auto.
Qed.
Lemma new_edge_ends a b v : v = fst (new_edge a b) \/ v = snd (new_edge a b) -> v = a \/ v = b.
Proof. destruct (new_edge_or a b) as [-> | ->]; cbn; tauto. Qed.
Lemma tri_edges_ends (Q : point -> Prop) R : forall es, (forall t, In t R -> Q (d_a t) /\ Q (d_b t) /\ Q (d_c t)) ->
  (forall e, In e es -> Q (fst e) /\ Q (snd e)) -> forall e, In e (fold_left add_tri_edges R es) -> Q (fst e) /\ Q (snd e).
Proof.
  induction R as [|t R IH]; intros es HR HE e I; cbn [fold_left] in I; [auto|].
  apply (IH (add_tri_edges es t)); [intros; apply HR; right; assumption| |exact I].
  destruct (HR t (or_introl eq_refl)) as (A & B & C).
  assert (N : forall a b e, Q a -> Q b -> e = new_edge a b -> Q (fst e) /\ Q (snd e)).
  { intros a b e0 Qa Qb ->. split; [destruct (new_edge_ends a b (fst (new_edge a b)) (or_introl eq_refl)) as [-> | ->]|destruct (new_edge_ends a b (snd (new_edge a b)) (or_intror eq_refl)) as [-> | ->]]; assumption. }
  intros f J. unfold add_tri_edges in J. apply add_edge_In in J. destruct J as [J|J]; [eapply N; [| |exact J]; assumption|].
  apply add_edge_In in J. destruct J as [J|J]; [eapply N; [| |exact J]; assumption|].
  apply add_edge_In in J. destruct J as [J|J]; [eapply N; [| |exact J]; assumption|]. auto.
Qed.

Lemma connect_foldM w h p es : size_ok w h -> in_image w h p -> (forall e, In e es -> okv w h (fst e) /\ okv w h (snd e)) -> forall st,
  foldM (connect p) es st = foldM add1 (map (fun e => new_triangle (fst e) (snd e) p) (filter (fun e => negb (orient (fst e) (snd e) p =? 0)) es)) st.
Proof.
  intros S Hp. induction es as [|e es IH]; intros H [[tris g] free]; [reflexivity|].
  cbn [foldM]. destruct (H e (or_introl eq_refl)) as [A B]. rewrite (connect_exact w h) by assumption. cbn [filter].
  specialize (IH (fun x I => H x (or_intror I))).
  destruct (orient (fst e) (snd e) p =? 0); cbn [negb map foldM].
  - apply IH.
  - unfold add1 at 1. destruct (add_triangle tris g free _) as [st'|]; [apply IH|reflexivity].
Qed.

Theorem insert_rstate w h d p d' : size_ok w h -> rstate_ok w h d -> in_image w h p -> insert d p = Some d' ->
  Z.of_nat (length (d_tris d')) <= 65536 -> rstate_ok w h d'.
Proof.
  intros S O Hp E L. unfold insert in E. destruct (add_point (d_pmap d) p) as [[pm c]|]; [|discriminate].
  destruct (group (d_grid d) p) as [l|] eqn:EG; [|discriminate]. rewrite circles_rm in E.
  unfold group in EG. destruct (point_cell (d_grid d) p) as [x y] eqn:EC.
  destruct (rm_loop_ok 10 true (fun t => contains_point t p) add_tri_edges (x, y) (length l) 0 (d_tris d) (d_grid d) (d_free d) [] l
     (rs_slots _ _ _ O) EG eq_refl ltac:(intros; lia)) as (tris & g & free & R & ER & S1 & G1 & PR & _).
  rewrite ER in E.
  assert (CR : forall t, In t R -> corners_ok w h t) by (intros t I; apply O; eapply Permutation_in; [apply Permutation_sym, PR|apply in_or_app; auto]).
  assert (OKE : forall e, In e (fold_left add_tri_edges R []) -> okv w h (fst e) /\ okv w h (snd e)).
  { apply tri_edges_ends; [exact CR|intros e []]. }
  rewrite (connect_foldM w h p _ S Hp OKE) in E.
  set (es := filter _ _) in E. set (news := map _ es) in E. destruct (foldM add1 news (tris, g, free)) as [[[tris' g'] free']|] eqn:EA; [|discriminate].
  injection E as <-. cbn [d_tris] in L.
  assert (NW : forall t, In t news -> exists e, In e (fold_left add_tri_edges R []) /\ t = new_triangle (fst e) (snd e) p).
  { intros t I. apply in_map_iff in I. destruct I as (e & <- & I). apply filter_In in I. exists e. tauto. }
  assert (NF : forall t, In t news -> is_freed t = false).
  { intros t I. destruct (NW t I) as (e & Ie & ->). unfold is_freed. cbn [new_triangle d_a]. apply Z.eqb_neq. eapply okv_not_freed; [exact S|apply OKE, Ie]. }
  destruct (add1_ok 10 news _ _ _ _ _ _ S1 NF EA L) as (S2 & G2 & P2).
  constructor; cbn [d_tris d_grid d_free d_super].
  - exact S2.
  - eapply geo_same; [|exact G2]. eapply geo_same; [|exact G1]. apply O.
  - intros t I. eapply Permutation_in in I; [|exact P2]. apply in_app_or in I. destruct I as [I|I].
    + destruct (NW t I) as (e & Ie & ->). destruct (OKE e Ie). repeat split; cbn [new_triangle d_a d_b d_c]; auto. right. exact Hp.
    + apply O. eapply Permutation_in; [apply Permutation_sym, PR|apply in_or_app; auto].
  - intros t I. eapply Permutation_in in I; [|exact P2]. apply in_app_or in I. destruct I as [I|I].
    + destruct (NW t I) as (e & Ie & ->). reflexivity.
    + apply (rs_own _ _ _ O). eapply Permutation_in; [apply Permutation_sym, PR|apply in_or_app; auto].
  - apply O.
Qed.

Lemma insert_keeps w h d p d' : size_ok w h -> rstate_ok w h d -> in_image w h p -> insert d p = Some d' -> Z.of_nat (length (d_tris d')) <= 65536 ->
  exists kept gone new, Permutation (live (d_tris d)) (gone ++ kept) /\ Permutation (live (d_tris d')) (new ++ kept) /\
    (forall t, In t gone -> contains_point t p = true) /\ (forall t, In t new -> d_c t = p).
Proof.
  intros S O Hp E L. unfold insert in E. destruct (add_point (d_pmap d) p) as [[pm c]|]; [|discriminate].
  destruct (group (d_grid d) p) as [l|] eqn:EG; [|discriminate]. rewrite circles_rm in E.
  unfold group in EG. destruct (point_cell (d_grid d) p) as [x y] eqn:EC.
  destruct (rm_loop_ok 10 true (fun t => contains_point t p) add_tri_edges (x, y) (length l) 0 (d_tris d) (d_grid d) (d_free d) [] l
     (rs_slots _ _ _ O) EG eq_refl ltac:(intros; lia)) as (tris & g & free & R & ER & S1 & G1 & PR & HT & _).
  rewrite ER in E.
  assert (CR : forall t, In t R -> corners_ok w h t) by (intros t I; apply O; eapply Permutation_in; [apply Permutation_sym, PR|apply in_or_app; auto]).
  assert (OKE : forall e, In e (fold_left add_tri_edges R []) -> okv w h (fst e) /\ okv w h (snd e)).
  { apply tri_edges_ends; [exact CR|intros e []]. }
  rewrite (connect_foldM w h p _ S Hp OKE) in E.
  set (es := filter _ _) in E. set (news := map _ es) in E. destruct (foldM add1 news (tris, g, free)) as [[[tris' g'] free']|] eqn:EA; [|discriminate].
  injection E as <-. cbn [d_tris] in *.
  assert (NF : forall t, In t news -> is_freed t = false).
  { intros t I. apply in_map_iff in I. destruct I as (e & <- & I). apply filter_In in I. destruct I as [Ie _].
    unfold is_freed. cbn [new_triangle d_a]. apply Z.eqb_neq. eapply okv_not_freed; [exact S|apply OKE, Ie]. }
  destruct (add1_ok 10 news _ _ _ _ _ _ S1 NF EA L) as (S2 & G2 & P2).
  exists (live tris), R, news. split; [exact PR|]. split; [exact P2|]. split; [intros t I; apply HT, I|].
  intros t I. apply in_map_iff in I. destruct I as (e & <- & _). reflexivity.
Qed.

(** The same for Remove. *)
Lemma hull_add_In p hull q v : In v (hull_add p hull q) -> v = q \/ In v hull.
Proof. unfold hull_add. destruct (peq q p); [auto|]. destruct (existsb (peq q) hull); [auto|]. intros I. apply in_app_or in I. destruct I as [I|[<-|[]]]; auto. Qed.
Lemma hull_fold_In (Q : point -> Prop) p R : forall hull, (forall t, In t R -> Q (d_a t) /\ Q (d_b t) /\ Q (d_c t)) ->
  (forall v, In v hull -> Q v) -> forall v, In v (fold_left (hull_add3 p) R hull) -> Q v.
Proof.
  induction R as [|t R IH]; intros hull HR HH v I; cbn [fold_left] in I; [auto|].
  apply (IH (hull_add3 p hull t)); [intros; apply HR; right; assumption| |exact I].
  destruct (HR t (or_introl eq_refl)) as (A & B & C). intros u J. unfold hull_add3 in J.
  apply hull_add_In in J. destruct J as [-> |J]; [assumption|]. apply hull_add_In in J. destruct J as [-> |J]; [assumption|].
  apply hull_add_In in J. destruct J as [-> |J]; [assumption|]. auto.
Qed.
Definition ear_in (Q : point -> Prop) (e : ear) : Prop := Q (e_a e) /\ Q (e_b e) /\ Q (e_c e).
Lemma nth_ear_in Q i es d : (forall e, In e es -> ear_in Q e) -> ear_in Q d -> ear_in Q (nth i es d).
Proof. intros H D. destruct (nth_in_or_default i es d) as [I| ->]; auto. Qed.
Lemma In_set_nth {A} (l : list A) i v x : In x (set_nth i v l) -> x = v \/ In x l.
Proof. revert i. induction l as [|a l IH]; intros [|i]; cbn; try tauto. - intros [<-|I]; auto. - intros [<-|I]; auto. apply IH in I. tauto. Qed.
Lemma firstn_skipn_In {A} (l : list A) n m x : In x (firstn n l ++ skipn m l) -> In x l.
Proof.
  intros I. apply in_app_or in I. destruct I as [I|I].
  - rewrite <- (firstn_skipn n l). apply in_or_app. auto.
  - rewrite <- (firstn_skipn m l). apply in_or_app. auto.
Qed.
Lemma cut_ear_in Q p es i : (i < length es)%nat -> (forall e, In e es -> ear_in Q e) -> forall e, In e (cut_ear p es i) -> ear_in Q e.
Proof.
  intros Hi H e I. unfold cut_ear in I. apply firstn_skipn_In in I.
  assert (HE : ear_in Q (nth i es (Ear p p p f0))) by (apply H, nth_In, Hi).
  set (e0 := nth i es (Ear p p p f0)) in *. set (bf := if (i =? 0)%nat then _ else _) in *.
  assert (HB : ear_in Q (nth bf es e0)) by (apply nth_ear_in; auto). set (eb := nth bf es e0) in *.
  assert (H1 : forall x, In x (set_nth bf (mk_ear p (e_a eb) (e_b eb) (e_c e0)) es) -> ear_in Q x).
  { intros x J. apply In_set_nth in J. destruct J as [-> |J]; [|auto]. unfold ear_in, mk_ear. cbn [e_a e_b e_c]. unfold ear_in in *. tauto. }
  set (es1 := set_nth bf _ es) in *. set (af := ((i + 1) mod length es)%nat) in *.
  assert (HA : ear_in Q (nth af es1 e0)) by (apply nth_ear_in; auto). set (ea := nth af es1 e0) in *.
  apply In_set_nth in I. destruct I as [-> |I]; [|auto]. unfold ear_in, mk_ear. cbn [e_a e_b e_c]. unfold ear_in in *. tauto.
Qed.
Lemma ear_loop_in Q p n : forall es l, (forall e, In e es -> ear_in Q e) -> ear_loop n p es = Some l ->
  forall a b c, In (a, b, c) l -> Q a /\ Q b /\ Q c.
Proof.
  induction n as [|n IH]; intros es l H E a b c I; [discriminate|]. cbn [ear_loop] in E.
  destruct (3 <? length es)%nat.
  - set (i := lowest 0 max_float64 0 es) in *. destruct (nth_error es i) as [e|] eqn:Ee; [|discriminate].
    destruct (ear_loop n p (cut_ear p es i)) as [l'|] eqn:EL; [|discriminate]. cbn in E. injection E as <-.
    destruct I as [[= <- <- <-]|I]; [apply H; eapply nth_error_In; eauto|].
    eapply IH; [|exact EL|exact I]. apply cut_ear_in; [apply nth_error_Some; congruence|exact H].
  - destruct es as [|e es]; [discriminate|]. injection E as <-. destruct I as [[= <- <- <-]|[]]. apply H. left. reflexivity.
Qed.
Lemma init_ears_in (Q : point -> Prop) p hull : (forall v, In v hull -> Q v) -> forall e, In e (init_ears p hull) -> ear_in Q e.
Proof.
  intros H e I. unfold init_ears in I. apply in_map_iff in I. destruct I as (i & <- & I). apply in_seq in I.
  assert (N : forall k, Q (nth ((i + k) mod length hull) hull (Pt 0 0))).
  { intros k. apply H, nth_In, Nat.mod_upper_bound. lia. }
  unfold ear_in, mk_ear. cbn [e_a e_b e_c]. auto.
Qed.
Lemma add_triangles_add1 l : forall st, add_triangles st l = foldM add1 (map (fun '(a, b, c) => new_triangle a b c) l) st.
Proof.
  unfold add_triangles. induction l as [|[[a b] c] l IH]; intros [[tris g] free]; [reflexivity|]. cbn [foldM map]. unfold add1 at 1.
  destruct (add_triangle tris g free (new_triangle a b c)); [apply IH|reflexivity].
Qed.

Theorem remove_rstate w h d sort p d' : size_ok w h -> rstate_ok w h d -> (forall l l', sort l = Some l' -> Permutation l l') ->
  remove sort d p = Some d' -> Z.of_nat (length (d_tris d')) <= 65536 -> rstate_ok w h d'.
Proof.
  intros S O HS E L. unfold remove in E. destruct (remove_point (d_pmap d) p) as [[pm c]|]; [|discriminate].
  destruct (negb (c =? 0)).
  { injection E as <-. destruct O. constructor; cbn; assumption. }
  unfold remove_star in E. destruct (group (d_grid d) p) as [l|] eqn:EG; [|discriminate]. rewrite vertex_rm in E.
  unfold group in EG. destruct (point_cell (d_grid d) p) as [x y] eqn:EC.
  destruct (rm_loop_ok 10 false (fun t => has_vertex t p) (hull_add3 p) (x, y) (length l) 0 (d_tris d) (d_grid d) (d_free d) [] l
     (rs_slots _ _ _ O) EG eq_refl ltac:(intros; lia)) as (tris & g & free & R & ER & S1 & G1 & PR & _).
  rewrite ER in E. set (hull := fold_left (hull_add3 p) R []) in *. destruct (sort hull) as [hull'|] eqn:ES; [|discriminate].
  assert (OKH : forall v, In v hull' -> okv w h v).
  { intros v I. eapply Permutation_in in I; [|apply Permutation_sym, (HS _ _ ES)]. revert v I. apply hull_fold_In; [|intros v []].
    intros t I. apply (rs_corners _ _ _ O). eapply Permutation_in; [apply Permutation_sym, PR|apply in_or_app; auto]. }
  destruct (ear_loop _ p (init_ears p hull')) as [ts|] eqn:EE; [|discriminate].
  assert (OKT : forall a b c0, In (a, b, c0) ts -> okv w h a /\ okv w h b /\ okv w h c0).
  { eapply ear_loop_in; [|exact EE]. apply init_ears_in, OKH. }
  rewrite add_triangles_add1 in E. set (news := map _ ts) in E.
  destruct (foldM add1 news (tris, g, free)) as [[[tris' g'] free']|] eqn:EA; [|discriminate].
  injection E as <-. cbn [d_tris] in L.
  assert (NW : forall t, In t news -> corners_ok w h t /\ t = new_triangle (d_a t) (d_b t) (d_c t)).
  { intros t I. apply in_map_iff in I. destruct I as ([[a b] c0] & <- & I). split; [exact (OKT _ _ _ I)|reflexivity]. }
  assert (NF : forall t, In t news -> is_freed t = false).
  { intros t I. destruct (NW t I) as ((A & _) & _). unfold is_freed. apply Z.eqb_neq. eapply okv_not_freed; [exact S|exact A]. }
  destruct (add1_ok 10 news _ _ _ _ _ _ S1 NF EA L) as (S2 & G2 & P2).
  constructor; cbn [d_tris d_grid d_free d_super].
  - exact S2.
  - eapply geo_same; [|exact G2]. eapply geo_same; [|exact G1]. apply O.
  - intros t I. eapply Permutation_in in I; [|exact P2]. apply in_app_or in I. destruct I as [I|I]; [apply NW, I|].
    apply O. eapply Permutation_in; [apply Permutation_sym, PR|apply in_or_app; auto].
  - intros t I. eapply Permutation_in in I; [|exact P2]. apply in_app_or in I. destruct I as [I|I].
    + destruct (NW t I) as [_ ->]. reflexivity.
    + apply (rs_own _ _ _ O). eapply Permutation_in; [apply Permutation_sym, PR|apply in_or_app; auto].
  - apply O.
Qed.

Lemma insert_counts w h P d p d' : size_ok w h -> counts_ok P d -> in_image w h p -> mult P p < 65535 -> insert d p = Some d' -> counts_ok (p :: P) d'.
Proof.
  intros S O Hp Hm E. unfold insert in E.
  destruct (add_point_ok (d_pmap d) P p (co_pm _ _ O) (in_image_hashable _ _ _ S Hp) Hm) as (pm & EP & _ & PM). rewrite EP in E.
  destruct (group (d_grid d) p); [|discriminate]. destruct (remove_circles_loop _ _ _ _ _ _ _ _) as [[[[tris g] free] es]|]; [|discriminate].
  destruct (foldM (connect p) es (tris, g, free)) as [[[tris' g'] free']|]; [|discriminate]. injection E as <-.
  constructor; cbn [d_pmap d_num d_unique]; [exact PM|rewrite (co_num _ _ O); cbn [length]; lia|].
  rewrite (co_unique _ _ O). pose proof (distinct_cons p P) as DC. unfold distinct in DC. rewrite DC.
  rewrite mult_cons. destruct (point_eq_dec p p); [|congruence].
  destruct (in_dec point_eq_dec p P) as [I|I].
  - apply (count_occ_In point_eq_dec) in I. unfold mult. destruct (Z.eqb_spec (1 + Z.of_nat (count_occ point_eq_dec P p)) 1); lia.
  - apply (count_occ_not_In point_eq_dec) in I. unfold mult. rewrite I. reflexivity.
Qed.
Lemma distinct_perm P Q : Permutation P Q -> distinct P = distinct Q.
Proof.
  intros H. unfold distinct. f_equal. apply Permutation_length, NoDup_Permutation; try apply NoDup_nodup.
  intros x. rewrite !nodup_In. split; apply Permutation_in; [exact H|apply Permutation_sym, H].
Qed.
Lemma remove_counts w h P d sort p P' d' : size_ok w h -> counts_ok P d -> in_image w h p -> take_out p P = Some P' -> remove sort d p = Some d' -> counts_ok P' d'.
Proof.
  intros S O Hp T E. unfold remove in E. pose proof (remove_point_ok (d_pmap d) P p (co_pm _ _ O) (in_image_hashable _ _ _ S Hp)) as R. rewrite T in R.
  destruct R as (pm & EP & _ & PM). rewrite EP in E. pose proof (take_out_spec _ _ _ T) as TP.
  assert (LP : Z.of_nat (length P) - 1 = Z.of_nat (length P')) by (apply Permutation_length in TP; cbn [length] in TP; lia).
  assert (DP : distinct P = distinct (p :: P')) by (apply distinct_perm; first [exact TP|apply Permutation_sym, TP]). rewrite distinct_cons in DP.
  destruct (Z.eqb_spec (mult P' p) 0) as [M0|M0]; cbn [negb] in E.
  - destruct (remove_star d p) as [[[[tris g] free] hull]|]; [|discriminate]. destruct (sort hull) as [hull'|]; [|discriminate].
    destruct (ear_loop _ p _) as [ts|]; [|discriminate]. destruct (add_triangles _ ts) as [[[tris' g'] free']|]; [|discriminate]. injection E as <-.
    constructor; cbn [d_pmap d_num d_unique]; [exact PM|rewrite (co_num _ _ O); exact LP|]. rewrite (co_unique _ _ O). fold (distinct P). fold (distinct P').
    destruct (in_dec point_eq_dec p P') as [I|I]; [|lia]. apply (count_occ_In point_eq_dec) in I. unfold mult in M0. lia.
  - injection E as <-. constructor; cbn [d_pmap d_num d_unique]; [exact PM|rewrite (co_num _ _ O); exact LP|]. rewrite (co_unique _ _ O). fold (distinct P). fold (distinct P').
    destruct (in_dec point_eq_dec p P') as [I|I]; [exact DP|]. apply (count_occ_not_In point_eq_dec) in I. unfold mult in M0. lia.
Qed.

Theorem reach_ok w h P d : size_ok w h -> reach w h P d -> rstate_ok w h d /\ counts_ok P d.
Proof.
  intros S R. induction R as [d E|P d p d' R [IH1 IH2] Hp Hm E L|P d sort p P' d' R [IH1 IH2] Hp T HS E L].
  - destruct (new_delaunay_ok w h S) as (d0 & E0 & O). rewrite E in E0. injection E0 as <-. split; constructor; try apply O. intros t I. eapply ds_corners; eauto.
  - split; [eapply insert_rstate|eapply insert_counts]; eauto.
  - split; [eapply remove_rstate|eapply remove_counts]; eauto.
Qed.

(** The panics "UH OH" and index errors of the look-ups are unreachable. *)
Lemma insert_runs w h d p : size_ok w h -> rstate_ok w h d -> in_image w h p -> (exists pm c, add_point (d_pmap d) p = Some (pm, c)) ->
  Z.of_nat (length (live (d_tris d))) <= 21845 -> exists d', insert d p = Some d'.
Proof.
  intros S O Hp (pm & c & EP) L. unfold insert. rewrite EP.
  pose proof (point_cell_range w h (d_grid d) p S (rs_geo _ _ _ O) Hp) as [CX CY].
  unfold group. destruct (point_cell (d_grid d) p) as [x y] eqn:EC. cbn [fst snd] in CX, CY.
  destruct (cell_Some 10 (d_grid d) x y (s_shape _ _ _ _ (rs_slots _ _ _ O)) CX CY) as (l & El). rewrite El, circles_rm.
  destruct (rm_loop_ok 10 true (fun t => contains_point t p) add_tri_edges (x, y) (length l) 0 (d_tris d) (d_grid d) (d_free d) [] l
     (rs_slots _ _ _ O) El eq_refl ltac:(intros; lia)) as (tris & g & free & R & -> & S1 & G1 & PR & _).
  assert (OKE : forall e, In e (fold_left add_tri_edges R []) -> okv w h (fst e) /\ okv w h (snd e)).
  { apply tri_edges_ends; [|intros e []]. intros t I. apply (rs_corners _ _ _ O). eapply Permutation_in; [apply Permutation_sym, PR|apply in_or_app; auto]. }
  rewrite (connect_foldM w h p _ S Hp OKE). set (news := map _ _).
  assert (EL : forall R es, (length (fold_left add_tri_edges R es) <= length es + 3 * length R)%nat).
  { assert (A1 : forall es e, (length (add_edge es e) <= length es + 1)%nat).
    { intros es e. unfold add_edge. destruct (find_index (edge_eq e) es) as [k|] eqn:E; [|rewrite app_length; cbn; lia].
      apply find_index_Some in E. destruct E as (a & En & _). assert (k < length es)%nat by (apply nth_error_Some; congruence). pose proof (swap_delete_length es k H). lia. }
    induction R0 as [|t R0 IH]; intros es; cbn [fold_left length]; [lia|]. specialize (IH (add_tri_edges es t)).
    unfold add_tri_edges in *. set (e1 := new_edge _ _) in *. pose proof (A1 es e1). set (es1 := add_edge es e1) in *.
    set (e2 := new_edge (d_b t) (d_c t)) in *. pose proof (A1 es1 e2). set (es2 := add_edge es1 e2) in *. set (e3 := new_edge (d_c t) (d_a t)) in *. pose proof (A1 es2 e3). lia. }
  assert (LN : (length news <= 3 * length R)%nat).
  { unfold news. rewrite map_length. etransitivity; [|apply (EL R [])]. clear. generalize (fold_left add_tri_edges R []). induction l as [|e l IH]; cbn [filter length]; [lia|]. destruct (negb _); cbn [length]; lia. }
  apply Permutation_length in PR. rewrite app_length in PR.
  destruct (add_list_ok 10 news tris g free S1) as (tris' & g' & free' & E2 & _).
  { intros t I. apply in_map_iff in I. destruct I as (e & <- & I). apply filter_In in I. unfold is_freed. cbn [new_triangle d_a]. apply Z.eqb_neq. eapply okv_not_freed; [exact S|apply OKE, I]. }
  { lia. }
  unfold add1. rewrite E2. eauto.
Qed.

(** Running a history and checking the conditions of [reach]. *)
Definition in_imageb (w h : Z) (p : point) : bool := (0 <=? px p) && (px p <=? w) && (0 <=? py p) && (py p <=? h).
Lemma in_imageb_ok w h p : in_imageb w h p = true -> in_image w h p.
Proof. unfold in_imageb, in_image. rewrite !andb_true_iff, !Z.leb_le. tauto. Qed.
Definition op_step (w h : Z) (st : delaunay * list point) (o : mop) : option (delaunay * list point) :=
  let '(d, P) := st in
  if negb (in_imageb w h (mop_point o)) then None else
  match o with
  | MAdd p => if mult P p <? 65535 then
      match insert d p with None => None | Some d' => if Z.of_nat (length (d_tris d')) <=? 65536 then Some (d', p :: P) else None end else None
  | MRemove p => match take_out p P, remove (insertion_sort p) d p with
                 | Some P', Some d' => if Z.of_nat (length (d_tris d')) <=? 65536 then Some (d', P') else None
                 | _, _ => None end
  end.
Definition run_ops (w h : Z) (ops : list mop) : option (delaunay * list point) :=
  match new_delaunay w h with None => None | Some d => foldM (op_step w h) ops (d, []) end.

Lemma ins_back_perm p x l : forall l', ins_back p x l = Some l' -> Permutation (x :: l) l'.
Proof.
  induction l as [|y l IH]; intros l'; cbn [ins_back]; [intros [= <-]; reflexivity|]. destruct (hull_less p x y) as [[|]|]; [|intros [= <-]; reflexivity|discriminate].
  destruct (ins_back p x l) as [r|]; [|discriminate]. cbn [option_map]. intros [= <-]. rewrite perm_swap. apply perm_skip, IH. reflexivity.
Qed.
Lemma insertion_sort_perm p l l' : insertion_sort p l = Some l' -> Permutation l l'.
Proof.
  unfold insertion_sort. assert (G : forall l acc r, foldM (fun acc x => ins_back p x acc) l acc = Some r -> Permutation (acc ++ l) r).
  { induction l0 as [|x l0 IH]; intros acc r; cbn [foldM]; [intros [= <-]; rewrite app_nil_r; reflexivity|].
    destruct (ins_back p x acc) as [acc'|] eqn:E; [|discriminate]. intros H. apply IH in H. apply ins_back_perm in E. rewrite <- H, <- E. cbn. symmetry. apply Permutation_middle. }
  destruct (foldM _ l []) as [r|] eqn:E; [|discriminate]. cbn [option_map]. intros [= <-]. apply G in E. cbn [app] in E. rewrite E. apply Permutation_rev.
Qed.
Lemma op_step_reach w h d P o d' P' : reach w h P d -> op_step w h (d, P) o = Some (d', P') -> reach w h P' d'.
Proof.
  intros R. unfold op_step. destruct (in_imageb w h (mop_point o)) eqn:EI; cbn [negb]; [|discriminate]. apply in_imageb_ok in EI. destruct o as [p|p]; cbn [mop_point] in EI.
  - destruct (Z.ltb_spec (mult P p) 65535); [|discriminate]. destruct (insert d p) as [d1|] eqn:E; [|discriminate].
    destruct (Z.leb_spec (Z.of_nat (length (d_tris d1))) 65536); [|discriminate]. intros [= <- <-]. eapply reach_insert; eauto.
  - destruct (take_out p P) as [P1|] eqn:T; [|discriminate]. destruct (remove (insertion_sort p) d p) as [d1|] eqn:E; [|discriminate].
    destruct (Z.leb_spec (Z.of_nat (length (d_tris d1))) 65536); [|discriminate]. intros [= <- <-]. eapply reach_remove; eauto. apply insertion_sort_perm.
Qed.
Lemma run_ops_reach w h ops d P : run_ops w h ops = Some (d, P) -> reach w h P d.
Proof.
  unfold run_ops. destruct (new_delaunay w h) as [d0|] eqn:E0; [|discriminate]. apply reach_new in E0. revert d0 E0. generalize (@nil point).
  induction ops as [|o ops IH]; intros Q d0 R; cbn [foldM]; [intros [= <- <-]; exact R|].
  destruct (op_step w h (d0, Q) o) as [[d1 P1]|] eqn:E; [|discriminate]. apply IH. eapply op_step_reach; eauto.
Qed.
