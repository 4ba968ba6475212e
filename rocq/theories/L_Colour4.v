(** Triangles with the same corners in any order, and sums over matching lists (C74). *)
From Coq Require Import ZArith Reals List Bool Arith Lia Lra Permutation.
From Verif Require Import GoNum M_Norm M_Geom S_Geom M_Image M_Raster M_Delaunay S_Delaunay S_Bound S_Run S_Run2 S_Remove S_Draw L_Circle L_Score L_Remove P_Delaunay P_Remove L_Draw P_Run2 P_Draw S_Colour L_Colour.
Import ListNotations.
Open Scope Z_scope.

(** * Triangles *)
Lemma dda_swap a b c : orient a b c <> 0 -> dda_lines (Tri a b c) = dda_lines (Tri b a c).
Proof.
  destruct a as [x0 y0], b as [x1 y1], c as [x2 y2]. intros N. unfold dda_lines, sort_vertices. cbn [ta tb tc px py] in *. rewrite !Z.gtb_ltb.
  repeat (match goal with |- context [Z.ltb ?u ?v] => destruct (Z.ltb_spec u v) | |- context [Z.eqb ?u ?v] => destruct (Z.eqb_spec u v) end; cbn [ta tb tc px py] in *; rewrite ?Z.gtb_ltb; try lia);
  try reflexivity; repeat match goal with H : ?u = ?v |- _ => subst u || subst v end;
  repeat match goal with H : ?u <= ?v, H' : ?v <= ?u |- _ => assert (u = v) by lia; subst u || subst v end; try reflexivity; try lia; exfalso; apply N; unfold orient; cbn [px py]; ring.
Qed.
Lemma dda_turn a b c : orient a b c <> 0 -> dda_lines (Tri a b c) = dda_lines (Tri b c a).
Proof.
  destruct a as [x0 y0], b as [x1 y1], c as [x2 y2]. intros N. unfold dda_lines, sort_vertices. cbn [ta tb tc px py] in *. rewrite !Z.gtb_ltb.
  repeat (match goal with |- context [Z.ltb ?u ?v] => destruct (Z.ltb_spec u v) | |- context [Z.eqb ?u ?v] => destruct (Z.eqb_spec u v) end; cbn [ta tb tc px py] in *; rewrite ?Z.gtb_ltb; try lia);
  try reflexivity; repeat match goal with H : ?u = ?v |- _ => subst u || subst v end;
  repeat match goal with H : ?u <= ?v, H' : ?v <= ?u |- _ => assert (u = v) by lia; subst u || subst v end; try reflexivity; try lia; exfalso; apply N; unfold orient; cbn [px py]; ring.
Qed.
Lemma orient_turn a b c : orient b c a = orient a b c. Proof. unfold orient. ring. Qed.
Lemma orient_swap a b c : orient b a c = - orient a b c. Proof. unfold orient. ring. Qed.
Lemma corners_sym a b c d e f : same_corners a b c d e f -> same_corners d e f a b c.
Proof. intros S p. symmetry. apply S. Qed.
Lemma corners_trans a b c d e f g h k : same_corners a b c d e f -> same_corners d e f g h k -> same_corners a b c g h k.
Proof. intros S T p. rewrite (S p). apply T. Qed.
(** Whatever does not depend on a turn and on a swap depends only on the corners. *)
Lemma orders {A} (f : point -> point -> point -> A) (H1 : forall a b c, orient a b c <> 0 -> f a b c = f b c a) (H2 : forall a b c, orient a b c <> 0 -> f a b c = f b a c) :
  forall a b c d e g, orient a b c <> 0 -> orient d e g <> 0 -> same_corners a b c d e g -> f a b c = f d e g.
Proof.
  intros a b c d e g N M Sc.
  assert (Dab : a <> b) by (intros ->; apply N; unfold orient; ring). assert (Dbc : b <> c) by (intros ->; apply N; unfold orient; ring). assert (Dac : a <> c) by (intros ->; apply N; unfold orient; ring).
  assert (Ia : In a [d; e; g]) by (apply Sc; cbn; auto). assert (Ib : In b [d; e; g]) by (apply Sc; cbn; auto). assert (Ic : In c [d; e; g]) by (apply Sc; cbn; auto).
  assert (T1 : orient b c a <> 0) by (rewrite orient_turn; exact N). assert (T2 : orient c a b <> 0) by (rewrite orient_turn; exact T1).
  destruct Ia as [Ia|[Ia|[Ia|[]]]], Ib as [Ib|[Ib|[Ib|[]]]], Ic as [Ic|[Ic|[Ic|[]]]]; try congruence; subst a b c; try reflexivity.
  - rewrite (H1 _ _ _ N), (H2 _ _ _ T1), <- (H1 _ _ _ M). reflexivity.
  - exact (H2 _ _ _ N).
  - rewrite (H1 _ _ _ N), (H1 _ _ _ T1). reflexivity.
  - exact (H1 _ _ _ N).
  - rewrite (H2 _ _ _ N). symmetry. rewrite (H1 _ _ _ M). rewrite (H1 _ _ _ ltac:(rewrite orient_turn; exact M)). reflexivity.
Qed.
Lemma pixels_order t u : orient (ta t) (tb t) (tc t) <> 0 -> orient (ta u) (tb u) (tc u) <> 0 -> same_corners (ta t) (tb t) (tc t) (ta u) (tb u) (tc u) -> dda_pixels t = dda_pixels u.
Proof.
  intros N M Sc. destruct t as [a b c], u as [d e g]. cbn [ta tb tc] in *. apply (orders (fun a b c => dda_pixels (Tri a b c))); try assumption; intros; unfold dda_pixels; f_equal; [apply dda_turn|apply dda_swap]; assumption.
Qed.
Lemma area_order a b c d e g : orient a b c <> 0 -> orient d e g <> 0 -> same_corners a b c d e g -> Z.abs (orient a b c) = Z.abs (orient d e g).
Proof.
  apply (orders (fun a b c => Z.abs (orient a b c))); intros x y z _; [rewrite (orient_turn x y z); reflexivity|rewrite (orient_swap x y z), Z.abs_opp; reflexivity].
Qed.
Lemma inside_order X Y M a b c d e g : orient a b c <> 0 -> orient d e g <> 0 -> same_corners a b c d e g -> loc_inside X Y M a b c -> loc_inside X Y M d e g.
Proof.
  intros N1 N2 Sc. set (f a b c := [(0 <? orient_at X Y M a b) && (0 <? orient_at X Y M b c) && (0 <? orient_at X Y M c a) || ((orient_at X Y M a b <? 0) && (orient_at X Y M b c <? 0) && (orient_at X Y M c a <? 0))]).
  assert (E : f a b c = f d e g).
  { apply orders; try assumption; intros x y z _; unfold f; f_equal.
    - destruct (0 <? orient_at X Y M x y), (0 <? orient_at X Y M y z), (0 <? orient_at X Y M z x), (orient_at X Y M x y <? 0), (orient_at X Y M y z <? 0), (orient_at X Y M z x <? 0); reflexivity.
    - assert (OP : forall e f, orient_at X Y M e f = - orient_at X Y M f e) by (intros; unfold orient_at; ring). rewrite (OP y x), (OP x z), (OP z y).
      generalize (orient_at X Y M x y), (orient_at X Y M y z), (orient_at X Y M z x). intros p q r.
      assert (A : forall v, (0 <? - v) = (v <? 0)) by (intros v; apply eq_true_iff_eq; rewrite !Z.ltb_lt; lia). assert (B : forall v, (- v <? 0) = (0 <? v)) by (intros v; apply eq_true_iff_eq; rewrite !Z.ltb_lt; lia).
      rewrite !A, !B. destruct (0 <? p), (0 <? q), (0 <? r), (p <? 0), (q <? 0), (r <? 0); reflexivity. }
  assert (K : forall x y z, loc_inside X Y M x y z <-> f x y z = [true]).
  { intros x y z. unfold loc_inside, f. split.
    - intros [(A & B & C)|(A & B & C)]; f_equal; apply orb_true_iff; [left|right]; rewrite !andb_true_iff, !Z.ltb_lt; auto.
    - intros [= H]. apply orb_true_iff in H. rewrite !andb_true_iff, !Z.ltb_lt in H. tauto. }
  rewrite !K, E. auto.
Qed.

(** * Lists *)
Lemma pairs_split {A} (P : A -> A -> Prop) l : ForallOrdPairs P l <-> forall l1 x l2 y l3, l = l1 ++ x :: l2 ++ y :: l3 -> P x y.
Proof.
  split.
  - intros F. induction F as [|a l Fa F IH]; intros l1 x l2 y l3 E; [destruct l1; discriminate|].
    destruct l1 as [|b l1]; cbn in E; injection E as -> E.
    + rewrite Forall_forall in Fa. apply Fa. rewrite E. apply in_or_app. right. left. reflexivity.
    + exact (IH _ _ _ _ _ E).
  - induction l as [|a l IH]; intros H; constructor.
    + apply Forall_forall. intros y I. apply in_split in I. destruct I as (l2 & l3 & ->). exact (H [] a l2 y l3 eq_refl).
    + apply IH. intros l1 x l2 y l3 ->. exact (H (a :: l1) x l2 y l3 eq_refl).
Qed.
Lemma pairs_filter {A} (P : A -> A -> Prop) f l : ForallOrdPairs P l -> ForallOrdPairs P (filter f l).
Proof.
  induction 1 as [|a l Fa F IH]; cbn [filter]; [constructor|]. destruct (f a); [|exact IH]. constructor; [|exact IH].
  rewrite Forall_forall in *. intros x I. apply filter_In in I. apply Fa, I.
Qed.
Lemma pairs_weaken {A} (P P' : A -> A -> Prop) l : (forall x y, In x l -> In y l -> P x y -> P' x y) -> ForallOrdPairs P l -> ForallOrdPairs P' l.
Proof.
  intros W F. induction F as [|a l Fa F IH]; constructor.
  - rewrite Forall_forall in *. intros x I. apply W; cbn; auto.
  - apply IH. intros x y Ix Iy. apply W; cbn; auto.
Qed.
Lemma pairs_map {A B} (P : B -> B -> Prop) (f : A -> B) l : ForallOrdPairs (fun x y => P (f x) (f y)) l -> ForallOrdPairs P (map f l).
Proof. induction 1 as [|a l Fa F IH]; cbn [map]; constructor; [|exact IH]. rewrite Forall_forall in *. intros x I. apply in_map_iff in I. destruct I as (y & <- & I). apply Fa, I. Qed.
Lemma pairs_remove {A} (P : A -> A -> Prop) l1 x l2 : (forall a b, P a b -> P b a) -> ForallOrdPairs P (l1 ++ x :: l2) -> ForallOrdPairs P (l1 ++ l2) /\ forall y, In y (l1 ++ l2) -> P x y.
Proof.
  intros Sy. induction l1 as [|a l1 IH]; cbn [app]; intros F; inversion F as [|? ? Fa F']; subst.
  - split; [exact F'|]. rewrite Forall_forall in Fa. exact Fa.
  - destruct (IH F') as [G H]. rewrite Forall_forall in Fa. split.
    + constructor; [|exact G]. apply Forall_forall. intros y I. apply Fa. apply in_or_app. apply in_app_or in I. cbn. tauto.
    + intros y [<-|I]; [|exact (H y I)]. apply Sy, Fa. apply in_or_app. right. left. reflexivity.
Qed.
(** Lists of triangles, pairwise different, with the same triangles. *)
Section Match.
Context {A : Type} (eqv : A -> A -> Prop) (f : A -> R).
Hypothesis eqv_sym : forall a b, eqv a b -> eqv b a.
Hypothesis eqv_trans : forall a b c, eqv a b -> eqv b c -> eqv a c.
Lemma match_total l : forall k, ForallOrdPairs (fun a b => ~ eqv a b) l -> ForallOrdPairs (fun a b => ~ eqv a b) k ->
  (forall a, In a l -> exists b, In b k /\ eqv a b) -> (forall b, In b k -> exists a, In a l /\ eqv a b) -> (forall a b, In a l -> In b k -> eqv a b -> f a = f b) -> total f l = total f k.
Proof.
  induction l as [|a l IH]; intros k Fl Fk L K E.
  - destruct k as [|b k]; [reflexivity|]. destruct (K b (or_introl eq_refl)) as (? & [] & _).
  - destruct (L a (or_introl eq_refl)) as (b & Ib & Eb). destruct (in_split _ _ Ib) as (k1 & k2 & ->).
    inversion Fl as [|? ? Fa Fl']; subst. rewrite Forall_forall in Fa.
    destruct (pairs_remove _ _ _ _ (fun x y H G => H (eqv_sym _ _ G)) Fk) as [Fk' D].
    assert (Sub : forall y, In y (k1 ++ k2) -> In y (k1 ++ b :: k2)) by (intros y I; apply in_or_app; apply in_app_or in I; cbn; tauto).
    rewrite total_cons, (E a b (or_introl eq_refl) Ib Eb), total_app, total_cons. rewrite (IH (k1 ++ k2) Fl' Fk').
    + rewrite total_app. lra.
    + intros x Ix. destruct (L x (or_intror Ix)) as (y & Iy & Ey). exists y. split; [|exact Ey]. apply in_app_or in Iy. destruct Iy as [Iy|[<-|Iy]]; [apply in_or_app; auto| |apply in_or_app; auto].
      exfalso. apply (Fa x Ix). eapply eqv_trans; [exact Eb|apply eqv_sym, Ey].
    + intros y Iy. destruct (K y (Sub y Iy)) as (x & [<-|Ix] & Ex); [|exists x; auto]. exfalso. apply (D y Iy). eapply eqv_trans; [apply eqv_sym, Eb|exact Ex].
    + intros x y Ix Iy. apply E; [right; exact Ix|apply Sub, Iy].
Qed.
End Match.

(** * The scored triangles *)
Lemma scored_different w h Q d : usual_size w h -> Forall (in_image w h) Q -> delaunay_triangulation w h Q d -> all_different (map (fun t => Tri (d_a t) (d_b t) (d_c t)) (iter_triangles d)).
Proof.
  intros Sz IQ D. apply pairs_map. cbn [ta tb tc]. rewrite Forall_forall in IQ.
  assert (F : ForallOrdPairs (fun t u => In t (iter_triangles d) -> ~ same_corners (d_a t) (d_b t) (d_c t) (d_a u) (d_b u) (d_c u)) (used d)).
  { apply pairs_split. intros l1 x l2 y l3 E Ix Sc. destruct (del_corners _ _ _ _ D x Ix) as (Ia & Ib & Ic).
    assert (Ux : In x (used d)) by (rewrite E; apply in_or_app; right; left; reflexivity).
    assert (Uy : In y (used d)) by (rewrite E; apply in_or_app; right; right; apply in_or_app; right; left; reflexivity).
    pose proof (del_area _ _ _ _ D x Ux) as Nx. pose proof (del_area _ _ _ _ D y Uy) as Ny. pose proof (centroid_inside _ _ _ Nx) as C.
    pose proof (inside_order _ _ _ _ _ _ _ _ _ Nx Ny Sc C) as Cy.
    pose proof (inside_super w h _ _ _ _ _ 3 (small_ok _ _ (usual_small _ _ Sz)) (IQ _ Ia) (IQ _ Ib) (IQ _ Ic) eq_refl C) as CS.
    destruct (del_cover _ _ _ _ D _ _ 3 eq_refl CS) as (k1 & t & k2 & E' & _ & O). rewrite E in E'.
    assert (Hc : forall u v k1 t k2, l1 ++ u :: l2 ++ v :: l3 = k1 ++ t :: k2 -> In u (k1 ++ k2) \/ In v (k1 ++ k2)).
    { clear. intros u v. revert u l2. induction l1 as [|z l1 IH]; intros u l2 k1 t k2 E; destruct k1 as [|z' k1]; cbn in E; injection E as -> E.
      - right. cbn. rewrite <- E. apply in_or_app. right. left. reflexivity.
      - left. left. reflexivity.
      - left. cbn. rewrite <- E. apply in_or_app. right. left. reflexivity.
      - destruct (IH _ _ _ _ _ E) as [I|I]; [left|right]; right; exact I. }
    destruct (Hc _ _ _ _ _ E') as [I|I]; exact (O _ I ltac:(assumption)). }
  assert (If : iter_triangles d = filter (fun t => negb (touches_super d t)) (used d)).
  { unfold iter_triangles, used. generalize (d_tris d) as l. clear. induction l as [|t l IH]; [reflexivity|]. cbn [filter]. destruct (negb (is_freed t)); cbn [andb filter]; [|exact IH].
    destruct (negb (touches_super d t)); rewrite IH; reflexivity. }
  pose proof (pairs_filter _ (fun t => negb (touches_super d t)) _ F) as G. rewrite <- If in G. revert G. apply pairs_weaken. intros x y Ix _ H. exact (H Ix).
Qed.
