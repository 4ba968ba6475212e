(** Plane geometry for the triangulation: point location by ray casting, and
    which families of triangles tile a triangle.

    Locations are rational points (X/M, Y/M) given by three integers with M > 0. *)
From Coq Require Import ZArith List Bool Lia Psatz Permutation.
From Verif Require Import M_Geom S_Geom M_Raster S_Raster L_Raster1 L_Raster6 S_Delaunay.
Import ListNotations.
Open Scope Z_scope.

Lemma orient_area2 a b c : orient a b c = area2 a b c.
Proof. unfold orient, area2. ring. Qed.

Record loc := Loc { lx : Z; ly : Z; lm : Z }.

(** [lm q] times the orientation of a, b, q. *)
Definition oloc (a b : point) (q : loc) : Z :=
  (px b - px a) * (ly q - lm q * py a) - (py b - py a) * (lx q - lm q * px a).

Definition at_pt (p : point) : loc := Loc (px p) (py p) 1.
Lemma oloc_at a b p : oloc a b (at_pt p) = orient a b p.
Proof. unfold oloc, orient, at_pt. cbn [lx ly lm]. ring. Qed.

(** q is strictly left of the upward edge a->b, in the rows of that edge. *)
Definition up (q : loc) (a b : point) : bool := (lm q * py a <=? ly q) && (ly q <? lm q * py b) && (0 <? oloc a b q).
Definition chi (q : loc) (e : point * point) : Z := b2z (up q (fst e) (snd e)) - b2z (up q (snd e) (fst e)).

Lemma chi_anti q a b : chi q (b, a) = - chi q (a, b).
Proof. unfold chi. cbn. lia. Qed.

(** How often a triangle counts q. *)
Definition wind (q : loc) (t : tri) : Z := ssum (chi q) (tedges t).
Definition winds (q : loc) (T : list tri) : Z := ssum (chi q) (flat_map tedges T).

Lemma winds_cons q t T : winds q (t :: T) = wind q t + winds q T.
Proof. unfold winds, wind. cbn [flat_map]. apply ssum_app. Qed.
Lemma winds_app q T T' : winds q (T ++ T') = winds q T + winds q T'.
Proof. unfold winds. rewrite flat_map_app. apply ssum_app. Qed.
Lemma winds_net q T T' : (forall a b, net T a b = net T' a b) -> winds q T = winds q T'.
Proof. intros H. unfold winds. apply chain_eq; [apply chi_anti|exact H]. Qed.

Definition pos (t : tri) : Prop := 0 < orient (ta t) (tb t) (tc t).

(** Barycentric facts. *)
Lemma bary_sum a b c q : oloc a b q + oloc b c q + oloc c a q = lm q * orient a b c.
Proof. unfold oloc, orient. ring. Qed.
Lemma bary_y a b c q :
  oloc b c q * (lm q * py a - ly q) + oloc c a q * (lm q * py b - ly q) + oloc a b q * (lm q * py c - ly q) = 0.
Proof. unfold oloc. ring. Qed.

Lemma oloc_swap a b q : oloc b a q = - oloc a b q.
Proof. unfold oloc. ring. Qed.

Lemma wind_signs (a b c u v w m d : Z) : 0 < m -> 0 < d -> u + v + w = m * d -> v * a + w * b + u * c = 0 -> ~ (a = b /\ b = c) ->
  let up (s t o : Z) := b2z ((s <=? 0) && (0 <? t) && (0 <? o)) in
  let s := (up a b u - up b a (- u)) + ((up b c v - up c b (- v)) + ((up c a w - up a c (- w)) + 0)) in
  0 <= s <= 1 /\ (0 < u -> 0 < v -> 0 < w -> s = 1) /\ (u < 0 \/ v < 0 \/ w < 0 -> s = 0).
Proof.
  intros Hm Hd E1 E2 ND. assert (P : 0 < u + v + w) by nia. clear E1 Hm Hd m d. cbv zeta. unfold b2z.
  destruct (Z.leb_spec a 0), (Z.ltb_spec 0 a); try lia; destruct (Z.leb_spec b 0), (Z.ltb_spec 0 b); try lia;
  destruct (Z.leb_spec c 0), (Z.ltb_spec 0 c); try lia; cbn [andb];
  destruct (Z.ltb_spec 0 u), (Z.ltb_spec 0 (- u)); try lia; destruct (Z.ltb_spec 0 v), (Z.ltb_spec 0 (- v)); try lia;
  destruct (Z.ltb_spec 0 w), (Z.ltb_spec 0 (- w)); try lia;
  try (split; [lia|split; lia]); exfalso; nia.
Qed.

Lemma wind_val q t : 0 < lm q -> pos t ->
  let u := oloc (ta t) (tb t) q in let v := oloc (tb t) (tc t) q in let w := oloc (tc t) (ta t) q in
  0 <= wind q t <= 1 /\ (0 < u -> 0 < v -> 0 < w -> wind q t = 1) /\ (u < 0 \/ v < 0 \/ w < 0 -> wind q t = 0).
Proof.
  intros Hm HP u v w. unfold pos in HP. destruct t as [a b c]; cbn [ta tb tc] in *.
  pose proof (wind_signs (lm q * py a - ly q) (lm q * py b - ly q) (lm q * py c - ly q) u v w (lm q) (orient a b c) Hm HP
    (bary_sum a b c q) (bary_y a b c q)) as H. cbv zeta in H.
  assert (ND : ~ (lm q * py a - ly q = lm q * py b - ly q /\ lm q * py b - ly q = lm q * py c - ly q)).
  { intros [X Y]. assert (py a = py b) by nia. assert (py b = py c) by nia. unfold orient in HP. replace (py b) with (py a) in HP by lia. replace (py c) with (py a) in HP by lia. lia. }
  specialize (H ND).
  unfold wind, ssum, tedges. cbn [ta tb tc map S_Geom.sumZ]. unfold chi, up. cbn [fst snd].
  rewrite (oloc_swap a b), (oloc_swap b c), (oloc_swap c a). fold u v w.
  assert (L : forall x, (lm q * x <=? ly q) = (lm q * x - ly q <=? 0)) by (intros; destruct (Z.leb_spec (lm q * x) (ly q)), (Z.leb_spec (lm q * x - ly q) 0); lia).
  assert (L2 : forall x, (ly q <? lm q * x) = (0 <? lm q * x - ly q)) by (intros; destruct (Z.ltb_spec (ly q) (lm q * x)), (Z.ltb_spec 0 (lm q * x - ly q)); lia).
  rewrite !L, !L2. exact H.
Qed.

Lemma wind_01 q t : 0 < lm q -> pos t -> 0 <= wind q t <= 1.
Proof. intros H P. apply (wind_val q t H P). Qed.
Lemma winds_nonneg q T : 0 < lm q -> Forall pos T -> 0 <= winds q T.
Proof. intros H. induction 1 as [|t T P _ IH]; [cbn; lia|]. rewrite winds_cons. pose proof (wind_01 q t H P). lia. Qed.

(** Locations inside a triangle. *)
Definition inside (q : loc) (t : tri) : Prop := 0 < oloc (ta t) (tb t) q /\ 0 < oloc (tb t) (tc t) q /\ 0 < oloc (tc t) (ta t) q.
Definition within (q : loc) (t : tri) : Prop := 0 <= oloc (ta t) (tb t) q /\ 0 <= oloc (tb t) (tc t) q /\ 0 <= oloc (tc t) (ta t) q.

Lemma inside_wind q t : 0 < lm q -> inside q t -> pos t /\ wind q t = 1.
Proof.
  intros Hm (A & B & C). assert (P : pos t).
  { unfold pos. pose proof (bary_sum (ta t) (tb t) (tc t) q). nia. }
  split; [exact P|]. destruct (wind_val q t Hm P) as (_ & X & _). auto.
Qed.
Lemma wind_within q t : 0 < lm q -> pos t -> wind q t = 1 -> within q t.
Proof.
  intros Hm P W. destruct (wind_val q t Hm P) as (_ & _ & X). unfold within.
  destruct (Z_lt_le_dec (oloc (ta t) (tb t) q) 0); [rewrite X in W by auto; discriminate|].
  destruct (Z_lt_le_dec (oloc (tb t) (tc t) q) 0); [rewrite X in W by auto; discriminate|].
  destruct (Z_lt_le_dec (oloc (tc t) (ta t) q) 0); [rewrite X in W by auto; discriminate|]. auto.
Qed.
Lemma winds_1 q T : 0 < lm q -> Forall pos T -> 0 < winds q T -> exists t, In t T /\ wind q t = 1.
Proof.
  intros Hm. induction 1 as [|t T P F IH]; [cbn; lia|]. rewrite winds_cons. intros H. pose proof (wind_01 q t Hm P).
  destruct (Z.eq_dec (wind q t) 1); [exists t; cbn; auto|]. destruct IH as (t' & I & W); [lia|]. exists t'. cbn. auto.
Qed.
Lemma winds_In q T t : 0 < lm q -> Forall pos T -> In t T -> wind q t <= winds q T.
Proof.
  intros Hm F I. apply in_split in I. destruct I as (l1 & l2 & ->). rewrite winds_app, winds_cons.
  apply Forall_app in F. destruct F as [F1 F2]. inversion F2; subst. pose proof (winds_nonneg q l1 Hm F1). pose proof (winds_nonneg q l2 Hm H2). lia.
Qed.

(* ---------------------------------------------------------------- *)
(** * Tilings of one triangle *)
Record tiling (s : tri) (T : list tri) : Prop := {
  t_net : forall a b, net T a b = net [s] a b;
  t_pos : Forall pos T;
  t_spos : pos s }.

Lemma winds_single q s : winds q [s] = wind q s.
Proof. rewrite winds_cons. cbn. lia. Qed.

Lemma tiling_winds s T q : tiling s T -> winds q T = wind q s.
Proof. intros H. rewrite (winds_net q T [s] (t_net _ _ H)). apply winds_single. Qed.

(** Every location strictly inside the outer triangle is in some closed triangle. *)
Lemma tiling_covers s T q : tiling s T -> 0 < lm q -> inside q s -> exists t, In t T /\ wind q t = 1 /\ within q t.
Proof.
  intros H Hm I. destruct (inside_wind q s Hm I) as [_ W].
  destruct (winds_1 q T Hm (t_pos _ _ H)) as (t & It & Wt); [rewrite (tiling_winds s T q H); lia|].
  exists t. split; [exact It|]. split; [exact Wt|]. apply wind_within; auto. eapply Forall_forall; [apply H|exact It].
Qed.

(** No location is strictly inside two of the triangles. *)
Lemma tiling_disjoint s T q l1 t1 l2 t2 l3 : tiling s T -> 0 < lm q -> T = l1 ++ t1 :: l2 ++ t2 :: l3 -> inside q t1 -> inside q t2 -> False.
Proof.
  intros H Hm E I1 I2. pose proof (tiling_winds s T q H) as W. pose proof (wind_01 q s Hm (t_spos _ _ H)).
  pose proof (t_pos _ _ H) as P. rewrite E in W, P. rewrite winds_app, winds_cons, winds_app, winds_cons in W.
  apply Forall_app in P. destruct P as [P1 P]. inversion P as [|? ? _ P']; subst. apply Forall_app in P'. destruct P' as [P2 P']. inversion P' as [|? ? _ P3]; subst.
  pose proof (winds_nonneg q l1 Hm P1). pose proof (winds_nonneg q l2 Hm P2). pose proof (winds_nonneg q l3 Hm P3).
  destruct (inside_wind q t1 Hm I1) as [_ A]. destruct (inside_wind q t2 Hm I2) as [_ B]. lia.
Qed.

(* ---------------------------------------------------------------- *)
(** * Directed edges occur at most once *)

(** A location inside two triangles with the same directed edge. *)
Definition common (a b c d : point) (K : Z) : loc :=
  Loc (K * (px a + px b) + px c + px d) (K * (py a + py b) + py c + py d) (2 * K + 2).

Lemma common_inside a b c d : 0 < orient a b c -> 0 < orient a b d ->
  let K := 1 + Z.abs (orient b c d) + Z.abs (orient c a d) + Z.abs (orient b d c) + Z.abs (orient d a c) in
  inside (common a b c d K) (Tri a b c) /\ inside (common a b c d K) (Tri a b d) /\ 0 < lm (common a b c d K).
Proof.
  intros H1 H2 K. assert (HK : 1 <= K) by lia. unfold inside. cbn [ta tb tc].
  assert (E1 : oloc a b (common a b c d K) = orient a b c + orient a b d) by (unfold oloc, orient, common; cbn [lx ly lm]; ring).
  assert (E2 : oloc b c (common a b c d K) = K * orient a b c + orient b c d) by (unfold oloc, orient, common; cbn [lx ly lm]; ring).
  assert (E3 : oloc c a (common a b c d K) = K * orient a b c + orient c a d) by (unfold oloc, orient, common; cbn [lx ly lm]; ring).
  assert (E4 : oloc b d (common a b c d K) = K * orient a b d + orient b d c) by (unfold oloc, orient, common; cbn [lx ly lm]; ring).
  assert (E5 : oloc d a (common a b c d K) = K * orient a b d + orient d a c) by (unfold oloc, orient, common; cbn [lx ly lm]; ring).
  rewrite E1, E2, E3, E4, E5. cbn [lm common].
  assert (X : K * orient a b c >= K) by nia. assert (Y : K * orient a b d >= K) by nia.
  split; [|split; [|lia]]; repeat split; lia.
Qed.

(** Rotations of a triangle. *)
Definition rot (t : tri) : tri := Tri (tb t) (tc t) (ta t).
Lemma orient_rot3 a b c : orient b c a = orient a b c. Proof. unfold orient. ring. Qed.
Lemma pos_rot t : pos (rot t) <-> pos t.
Proof. unfold pos, rot. cbn. rewrite orient_rot3. reflexivity. Qed.
Lemma inside_rot q t : inside q (rot t) <-> inside q t.
Proof. unfold inside, rot. cbn. tauto. Qed.

Lemma edge_apex t a b : In (a, b) (tedges t) -> exists c, (t = Tri a b c \/ t = Tri c a b \/ t = Tri b c a).
Proof. destruct t as [x y z]. cbn. intros [E | [E | [E | [] ] ] ]; injection E as <- <-; eauto. Qed.
Lemma rot_pos3 a b c t : t = Tri a b c \/ t = Tri c a b \/ t = Tri b c a -> pos t -> 0 < orient a b c.
Proof. intros [-> | [-> | ->]]; unfold pos; cbn; unfold orient; lia. Qed.
Lemma rot_inside3 q a b c t : t = Tri a b c \/ t = Tri c a b \/ t = Tri b c a -> inside q (Tri a b c) -> inside q t.
Proof. intros [-> | [-> | ->]]; unfold inside; cbn; tauto. Qed.

Lemma pos_distinct a b c : 0 < orient a b c -> a <> b /\ b <> c /\ c <> a.
Proof. unfold orient. intros H. repeat split; intros ->; lia. Qed.

Lemma tedges_NoDup t : pos t -> NoDup (tedges t).
Proof.
  destruct t as [a b c]. unfold pos. cbn. intros H. destruct (pos_distinct _ _ _ H) as (A & B & C).
  repeat constructor; cbn; intros X; repeat match goal with H : _ \/ _ |- _ => destruct H | H : (_, _) = (_, _) |- _ => injection H; intros; subst; clear H end; try congruence; tauto.
Qed.

Lemma tiling_edges_once s T a b : tiling s T -> count (edge_eqb (a, b)) (flat_map tedges T) <= 1.
Proof.
  intros H.
  assert (G : forall l r, T = l ++ r -> count (edge_eqb (a, b)) (flat_map tedges r) <= 1).
  { intros l r. revert l. induction r as [|t r IH]; intros l E; [cbn; lia|]. cbn [flat_map]. rewrite count_app.
    pose proof (t_pos _ _ H) as P. rewrite E in P. apply Forall_app in P. destruct P as [_ P]. inversion P as [|x l0 Pt Pr]; subst x l0. rename t into x, r into l0.
    assert (N1 : count (edge_eqb (a, b)) (tedges x) <= 1).
    { pose proof (tedges_NoDup x Pt) as ND. clear - ND. induction ND as [|e l N ND IHl]; [cbn; lia|]. rewrite count_cons.
      unfold b2z. destruct (edge_eqb (a, b) e) eqn:Ee; [|lia]. apply edge_eqb_eq in Ee. subst e.
      enough (count (edge_eqb (a, b)) l = 0) by lia. pose proof (count_nonneg (edge_eqb (a, b)) l).
      destruct (Z.eq_dec (count (edge_eqb (a, b)) l) 0); [assumption|]. exfalso. apply N. apply (count_pos_in (a, b)). lia. }
    specialize (IH (l ++ [x]) ltac:(rewrite <- app_assoc; exact E)).
    destruct (Z_le_gt_dec (count (edge_eqb (a, b)) (flat_map tedges l0)) 0) as [Z0|Z1]; [lia|].
    destruct (Z_le_gt_dec (count (edge_eqb (a, b)) (tedges x)) 0) as [Z2|Z3]; [lia|]. exfalso.
    assert (I1 : In (a, b) (tedges x)) by (apply count_pos_in; lia).
    assert (I2 : In (a, b) (flat_map tedges l0)) by (apply count_pos_in; lia).
    apply in_flat_map in I2. destruct I2 as (y & Iy & I2). apply in_split in Iy. destruct Iy as (l2 & l3 & ->).
    destruct (edge_apex _ _ _ I1) as (c & Ec). destruct (edge_apex _ _ _ I2) as (d & Ed).
    assert (Py : pos y) by (eapply Forall_forall; [exact Pr|apply in_or_app; right; left; reflexivity]).
    destruct (common_inside a b c d (rot_pos3 _ _ _ _ Ec Pt) (rot_pos3 _ _ _ _ Ed Py)) as (A & B & C).
    eapply (tiling_disjoint s T _ l x l2 y l3 H C E); eapply rot_inside3; eauto. }
  apply (G [] T eq_refl).
Qed.

(** Neighbours: the other side of an edge is covered too, unless it is an edge of s. *)
Lemma in_count e l : In e l -> 1 <= count (edge_eqb e) l.
Proof.
  induction l as [|f l IH]; [intros []|]. rewrite count_cons. intros [->|I].
  - rewrite edge_eqb_refl. cbn [b2z]. pose proof (count_nonneg (edge_eqb e) l). lia.
  - specialize (IH I). unfold b2z. destruct (edge_eqb e f); lia.
Qed.
Lemma tiling_neighbour s T a b : tiling s T -> In (a, b) (flat_map tedges T) -> In (b, a) (flat_map tedges T) \/ In (a, b) (tedges s).
Proof.
  intros H I. pose proof (t_net _ _ H a b) as N. unfold net in N. apply in_count in I.
  destruct (Z_le_gt_dec 1 (count (edge_eqb (b, a)) (flat_map tedges T))) as [G|G]; [left; apply count_pos_in; lia|].
  right. cbn [flat_map] in N. rewrite app_nil_r in N. pose proof (count_nonneg (edge_eqb (b, a)) (tedges s)).
  apply count_pos_in. lia.
Qed.

(* ---------------------------------------------------------------- *)
(** * At most two triangles per corner *)
Definition neg (p : point) : point := Pt (- px p) (- py p).
Definition negt (t : tri) : tri := Tri (neg (ta t)) (neg (tb t)) (neg (tc t)).

Lemma median_once t : pos t ->
  sumZ (map (fun v => wind (at_pt v) t + wind (at_pt (neg v)) (negt t)) (verts t)) = 1.
Proof.
  destruct t as [a b c]. unfold pos. cbn [ta tb tc]. intros H.
  unfold verts, wind, ssum, tedges, negt. cbn [ta tb tc map sumZ]. unfold chi, up. cbn [fst snd].
  rewrite !oloc_at. cbn [at_pt lm ly neg py]. rewrite !Z.mul_1_l.
  assert (N : forall p q r, orient (neg p) (neg q) (neg r) = orient p q r) by (intros; unfold orient, neg; cbn [px py]; ring).
  rewrite !N.
  assert (D1 : forall p q, orient p q p = 0) by (intros; unfold orient; ring).
  assert (D2 : forall p q, orient p q q = 0) by (intros; unfold orient; ring).
  rewrite !D1, !D2.
  assert (O1 : orient b c a = orient a b c) by apply orient_rot3. assert (O2 : orient c a b = orient a b c) by (unfold orient; ring).
  assert (O3 : orient b a c = - orient a b c) by (unfold orient; ring). assert (O4 : orient c b a = - orient a b c) by (unfold orient; ring).
  assert (O5 : orient a c b = - orient a b c) by (unfold orient; ring).
  rewrite O1, O2, O3, O4, O5.
  assert (K : ~ (py a = py b /\ py b = py c)) by (intros [X Y]; unfold orient in H; rewrite X, Y in H; lia).
  clear O1 O2 O3 O4 O5 D1 D2 N. set (d := orient a b c) in *. clearbody d.
  destruct (Z.ltb_spec 0 d); [|lia]. destruct (Z.ltb_spec 0 (- d)); [lia|]. cbn [Z.ltb Z.compare]. unfold b2z.
  generalize dependent (py a). generalize dependent (py b). generalize dependent (py c). intros z y x K.
  rewrite !andb_false_r, !andb_true_r.
  destruct (Z.leb_spec x y), (Z.ltb_spec y x), (Z.leb_spec y x), (Z.ltb_spec x y); try lia;
  destruct (Z.leb_spec x z), (Z.ltb_spec z x), (Z.leb_spec z x), (Z.ltb_spec x z); try lia;
  destruct (Z.leb_spec z y), (Z.ltb_spec y z), (Z.leb_spec y z), (Z.ltb_spec z y); try lia;
  repeat match goal with |- context [- ?a <=? - ?b] => destruct (Z.leb_spec (- a) (- b)); try lia | |- context [- ?a <? - ?b] => destruct (Z.ltb_spec (- a) (- b)); try lia end;
  cbn; try lia.
Qed.
