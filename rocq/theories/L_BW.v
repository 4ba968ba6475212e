(** Inserting a point into a Delaunay tiling (Bowyer-Watson), abstractly. *)
From Coq Require Import ZArith List Bool Lia Psatz Permutation.
From Verif Require Import M_Geom S_Geom M_Raster S_Raster L_Raster1 L_Raster6 S_Delaunay L_Plane.
Import ListNotations.
Open Scope Z_scope.

(** For counter-clockwise a b c: positive iff p is strictly inside the circle
    through a, b, c, zero iff on it (shown in [L_Circle]). *)
Definition incirc (a b c p : point) : Z :=
  let ax := px a - px p in let ay := py a - py p in
  let bx := px b - px p in let by_ := py b - py p in
  let cx := px c - px p in let cy := py c - py p in
  (ax * ax + ay * ay) * (bx * cy - cx * by_) +
  (bx * bx + by_ * by_) * (cx * ay - ax * cy) +
  (cx * cx + cy * cy) * (ax * by_ - bx * ay).

Definition tinc (t : tri) (p : point) : Z := incirc (ta t) (tb t) (tc t) p.

Lemma incirc_rot a b c p : incirc b c a p = incirc a b c p. Proof. unfold incirc. ring. Qed.
Lemma incirc_swap a b c p : incirc b a c p = - incirc a b c p. Proof. unfold incirc. ring. Qed.
Lemma incirc_at a b c : incirc a b c a = 0. Proof. unfold incirc. ring. Qed.

(** Circles through a and b. *)
Lemma pencil a b c d p : orient a b d * incirc a b c p - orient a b c * incirc a b d p = incirc a b c d * orient a b p.
Proof. unfold incirc, orient. ring. Qed.

Definition d2 (a b : point) : Z := (px a - px b) * (px a - px b) + (py a - py b) * (py a - py b).
Lemma incirc_bary a b c x : orient a b c * incirc a b c x =
  orient b c x * orient c a x * d2 a b + orient c a x * orient a b x * d2 b c + orient a b x * orient b c x * d2 c a.
Proof. unfold incirc, orient, d2. ring. Qed.
Lemma d2_nonneg a b : 0 <= d2 a b. Proof. unfold d2. pose proof (Z.square_nonneg (px a - px b)). pose proof (Z.square_nonneg (py a - py b)). lia. Qed.
Lemma point_ext' (a b : point) : px a = px b -> py a = py b -> a = b.
Proof. destruct a, b. cbn. congruence. Qed.
Lemma d2_pos a b : a <> b -> 0 < d2 a b.
Proof.
  intros N. unfold d2. pose proof (Z.square_nonneg (px a - px b)). pose proof (Z.square_nonneg (py a - py b)).
  destruct (Z.eq_dec (px a) (px b)); [|assert (0 < (px a - px b) * (px a - px b)) by (apply Z.lt_le_trans with (Z.abs (px a - px b)); nia); lia].
  destruct (Z.eq_dec (py a) (py b)); [|assert (0 < (py a - py b) * (py a - py b)) by (apply Z.lt_le_trans with (Z.abs (py a - py b)); nia); lia].
  exfalso. apply N. apply point_ext'; assumption.
Qed.

(** A corner-free point of a closed triangle is strictly inside its circle. *)
Lemma two_zero a b c x : 0 < orient a b c -> orient a b x = 0 -> orient c a x = 0 -> x = a.
Proof.
  intros H E1 E2. apply point_ext'.
  - assert (E : (px x - px a) * orient a b c = (px b - px a) * orient c a x + (px c - px a) * orient a b x) by (unfold orient; ring).
    rewrite E1, E2, !Z.mul_0_r in E. apply Z.mul_eq_0 in E. lia.
  - assert (E : (py x - py a) * orient a b c = (py b - py a) * orient c a x + (py c - py a) * orient a b x) by (unfold orient; ring).
    rewrite E1, E2, !Z.mul_0_r in E. apply Z.mul_eq_0 in E. lia.
Qed.

Lemma closed_in_circle a b c x : 0 < orient a b c -> 0 <= orient a b x -> 0 <= orient b c x -> 0 <= orient c a x ->
  0 <= incirc a b c x /\ (incirc a b c x = 0 -> x = a \/ x = b \/ x = c).
Proof.
  intros H U V W. pose proof (incirc_bary a b c x) as E. destruct (pos_distinct _ _ _ H) as (N1 & N2 & N3).
  pose proof (d2_pos a b N1) as D1. pose proof (d2_pos b c N2) as D2. pose proof (d2_pos c a N3) as D3.
  pose proof (two_zero a b c x H) as Za. pose proof (two_zero b c a x) as Zb. pose proof (two_zero c a b x) as Zc.
  replace (orient b c a) with (orient a b c) in Zb by (unfold orient; ring). replace (orient c a b) with (orient a b c) in Zc by (unfold orient; ring).
  assert (S : orient a b x + orient b c x + orient c a x = orient a b c) by (unfold orient; ring).
  set (u := orient a b x) in *. set (v := orient b c x) in *. set (w := orient c a x) in *. set (D := orient a b c) in *.
  set (i := incirc a b c x) in *. clearbody u v w D i. clear N1 N2 N3.
  assert (P1 : 0 <= v * w) by nia. assert (P2 : 0 <= w * u) by nia. assert (P3 : 0 <= u * v) by nia.
  set (A := d2 a b) in *. set (B := d2 b c) in *. set (C := d2 c a) in *. clearbody A B C.
  assert (R1 : 0 <= v * w * A) by nia. assert (R2 : 0 <= w * u * B) by nia. assert (R3 : 0 <= u * v * C) by nia.
  split; [nia|]. intros ->. rewrite Z.mul_0_r in E.
  assert (Q1 : v * w = 0) by (assert (Z0 : v * w * A = 0) by lia; apply Z.mul_eq_0 in Z0; lia).
  assert (Q2 : w * u = 0) by (assert (Z0 : w * u * B = 0) by lia; apply Z.mul_eq_0 in Z0; lia).
  assert (Q3 : u * v = 0) by (assert (Z0 : u * v * C = 0) by lia; apply Z.mul_eq_0 in Z0; lia).
  assert (v = 0 \/ v <> 0) as [->|Nv] by lia.
  - assert (w = 0 \/ w <> 0) as [->|Nw] by lia; [|assert (u = 0) by nia; subst u; right; left; apply Zb; auto].
    right; right. apply Zc; auto.
  - assert (w = 0) by nia. assert (u = 0) by nia. left. apply Za; auto.
Qed.

(* ---------------------------------------------------------------- *)
(** * The invariant *)
Definition inner (s : tri) (p : point) : Prop := inside (at_pt p) s.

Record delaunay_tiling (s : tri) (P : list point) (T : list tri) : Prop := {
  dt_tiling : tiling s T;
  dt_inner : forall x, In x P -> inner s x;
  dt_verts : forall t v, In t T -> In v (verts t) -> In v (verts s ++ P);
  dt_empty : forall t x, In t T -> In x (verts s ++ P) -> tinc t x <= 0;
  dt_used : forall x, In x P -> exists t, In t T /\ In x (verts t) }.

Lemma net_perm T T' a b : Permutation T T' -> net T a b = net T' a b.
Proof.
  intros H. unfold net. assert (G : forall e, count (edge_eqb e) (flat_map tedges T) = count (edge_eqb e) (flat_map tedges T')).
  { intros e. induction H; cbn [flat_map]; rewrite ?count_app; lia. }
  rewrite !G. reflexivity.
Qed.
Lemma net_app T T' a b : net (T ++ T') a b = net T a b + net T' a b.
Proof. unfold net. rewrite flat_map_app, !count_app. lia. Qed.

Lemma delaunay_perm s P T T' : Permutation T T' -> delaunay_tiling s P T -> delaunay_tiling s P T'.
Proof.
  intros H [[A B C] D E F G]. assert (I : forall t, In t T' -> In t T) by (intros t; apply Permutation_in, Permutation_sym, H).
  split.
  - split; auto.
    + intros a b. rewrite <- (net_perm T T' a b H). apply A.
    + apply Forall_forall. intros t It. eapply Forall_forall; [exact B|auto].
  - auto.
  - intros; eapply E; eauto.
  - intros; eapply F; eauto.
  - intros x Hx. destruct (G x Hx) as (t & It & Vt). exists t. split; [eapply Permutation_in; eauto|exact Vt].
Qed.

(** Rotating a triangle keeps its meaning. *)
Lemma tinc_edge t a b c x : t = Tri a b c \/ t = Tri c a b \/ t = Tri b c a -> tinc t x = incirc a b c x.
Proof. intros [-> | [-> | ->]]; unfold tinc; cbn [ta tb tc]; [reflexivity| |]; unfold incirc; ring. Qed.

(** Points of the closed outer triangle are on the inner side of its edges. *)
Lemma outer_side s a b x : pos s -> In (a, b) (tedges s) -> (inner s x -> 0 < orient a b x) /\ (In x (verts s) -> 0 <= orient a b x).
Proof.
  intros P I. destruct s as [u v w]. unfold inner, inside, pos in *. cbn [ta tb tc verts] in *. rewrite !oloc_at.
  cbn in I. assert (D1 : forall p q, orient p q p = 0) by (intros; unfold orient; ring). assert (D2 : forall p q, orient p q q = 0) by (intros; unfold orient; ring).
  destruct I as [E | [E | [E | [] ] ] ]; injection E as <- <-; (split; [tauto|]); (intros [<- | [<- | [<- | [] ] ] ]; cbn [ta tb tc]; rewrite ?D1, ?D2; try lia; unfold orient in *; lia).
Qed.

Section Insert.
  Variables (s : tri) (P : list point) (T B K : list tri) (p : point) (E : list (point * point)).
  Hypothesis HT : delaunay_tiling s P T.
  Hypothesis Hp : inner s p.
  Hypothesis HBK : Permutation T (B ++ K).
  Hypothesis HB : forall t, In t B -> 0 <= tinc t p.
  Hypothesis HK : forall t, In t K -> tinc t p < 0.
  Hypothesis HE1 : NoDup E.
  Hypothesis HE2 : forall a b, In (a, b) E <-> In (a, b) (flat_map tedges B) /\ ~ In (b, a) (flat_map tedges B).

  Definition fan : list tri := map (fun e => Tri (fst e) (snd e) p) E.

  Lemma HT2 : delaunay_tiling s P (B ++ K). Proof. eapply delaunay_perm; eauto. Qed.
  Let TL := dt_tiling _ _ _ HT2.
  Lemma B_pos t : In t B -> pos t.
  Proof. intros I. eapply Forall_forall; [apply (t_pos _ _ TL)|apply in_or_app; auto]. Qed.

  (** A boundary edge, its triangle, and what is on the other side. *)
  Lemma boundary a b : In (a, b) E -> exists c, 0 < orient a b c /\ 0 <= incirc a b c p /\
     (forall x, In x (verts s ++ P) -> incirc a b c x <= 0) /\ In a (verts s ++ P) /\ In b (verts s ++ P) /\
     ((exists d, In d (verts s ++ P) /\ orient a b d < 0 /\ 0 < incirc a b d p /\ (forall x, In x (verts s ++ P) -> 0 <= incirc a b d x)) \/
      (0 < orient a b p /\ forall x, In x (verts s ++ P) -> 0 <= orient a b x)).
  Proof.
    intros I. apply HE2 in I. destruct I as [I N]. pose proof I as I'. apply in_flat_map in I. destruct I as (t & It & I).
    destruct (edge_apex _ _ _ I) as (c & Ec). exists c.
    assert (Inc : forall x, tinc t x = incirc a b c x) by (intros; apply tinc_edge; exact Ec).
    assert (IT : In t (B ++ K)) by (apply in_or_app; auto).
    assert (Vab : In a (verts t) /\ In b (verts t)) by (destruct Ec as [-> | [-> | ->]]; cbn; auto).
    split; [eapply rot_pos3; [exact Ec|apply B_pos, It]|]. split; [rewrite <- Inc; apply HB, It|].
    split; [intros x Hx; rewrite <- Inc; eapply dt_empty; [exact HT2|exact IT|exact Hx]|].
    split; [eapply dt_verts; [exact HT2|exact IT|tauto]|]. split; [eapply dt_verts; [exact HT2|exact IT|tauto]|].
    destruct (tiling_neighbour s (B ++ K) a b TL) as [J|J].
    - rewrite flat_map_app. apply in_or_app. auto.
    - left. rewrite flat_map_app in J. apply in_app_or in J. destruct J as [J|J]; [contradiction|].
      apply in_flat_map in J. destruct J as (t' & It' & J). destruct (edge_apex _ _ _ J) as (d & Ed). exists d.
      assert (IT' : In t' (B ++ K)) by (apply in_or_app; auto).
      assert (Inc' : forall x, tinc t' x = - incirc a b d x) by (intros; rewrite (tinc_edge t' b a d x Ed); apply incirc_swap).
      assert (P' : 0 < orient b a d).
      { eapply rot_pos3; [exact Ed|]. eapply Forall_forall; [apply (t_pos _ _ TL)|exact IT']. }
      split; [eapply dt_verts; [exact HT2|exact IT'|]; destruct Ed as [-> | [-> | ->]]; cbn; auto|].
      split; [unfold orient in *; lia|]. split; [pose proof (HK t' It') as Q; rewrite Inc' in Q; lia|].
      intros x Hx. pose proof (dt_empty _ _ _ HT2 t' x IT' Hx) as Q. rewrite Inc' in Q. lia.
    - right. pose proof (t_spos _ _ TL) as Ps. split; [apply (outer_side s a b p Ps J), Hp|]. intros x Hx. apply in_app_or in Hx. destruct Hx as [Hx|Hx].
      + apply (outer_side s a b x Ps J), Hx.
      + apply Z.lt_le_incl. apply (outer_side s a b x Ps J). eapply dt_inner; [exact HT|exact Hx].
  Qed.

  (** The cavity is star-shaped around p. *)
  Lemma star a b : In (a, b) E -> 0 < orient a b p.
  Proof.
    intros I. destruct (boundary a b I) as (c & Oc & Ip & Ix & Ia & Ib & [(d & Id & Od & Idp & Idx)|[? _]]); [|assumption].
    pose proof (pencil a b c d p) as X. pose proof (Ix d Id) as Y.
    set (o := orient a b p) in *. set (oc := orient a b c) in *. set (od := orient a b d) in *.
    set (i1 := incirc a b c p) in *. set (i2 := incirc a b d p) in *. set (i3 := incirc a b c d) in *. clearbody o oc od i1 i2 i3.
    assert (od * i1 <= 0) by nia. assert (0 < oc * i2) by nia. nia.
  Qed.

  (** The new triangles are Delaunay. *)
  Lemma fan_empty a b x : In (a, b) E -> In x (verts s ++ p :: P) -> incirc a b p x <= 0.
  Proof.
    intros I Hx. assert (x = p \/ In x (verts s ++ P)) as [->|Hx'].
    { rewrite in_app_iff in *. cbn [In] in Hx. intuition auto. }
    { rewrite <- incirc_rot, <- incirc_rot, incirc_at. lia. }
    clear Hx. pose proof (star a b I) as O.
    destruct (boundary a b I) as (c & Oc & Ip & Ix & Ia & Ib & H).
    specialize (Ix x Hx'). pose proof (pencil a b c p x) as X.
    destruct (Z_lt_le_dec (orient a b x) 0) as [L|L].
    - destruct H as [(d & Id & Od & Idp & Idx)|[_ H]]; [|specialize (H x Hx'); lia].
      specialize (Idx x Hx'). pose proof (pencil a b d p x) as Y. clear X.
      set (ox := orient a b x) in *. set (od := orient a b d) in *. set (op := orient a b p) in *.
      set (i1 := incirc a b d x) in *. set (i2 := incirc a b p x) in *. set (i3 := incirc a b d p) in *. clearbody ox od op i1 i2 i3. nia.
    - set (ox := orient a b x) in *. set (oc := orient a b c) in *. set (op := orient a b p) in *.
      set (i1 := incirc a b c x) in *. set (i2 := incirc a b p x) in *. set (i3 := incirc a b c p) in *. clearbody ox oc op i1 i2 i3.
      assert (op * i1 <= 0) by nia. assert (0 <= i3 * ox) by nia. nia.
  Qed.

  (** The boundary of the cavity is the boundary of the new triangles. *)
  Lemma B_once a b : count (edge_eqb (a, b)) (flat_map tedges B) <= 1.
  Proof.
    pose proof (tiling_edges_once s (B ++ K) a b TL) as H. rewrite flat_map_app, count_app in H.
    pose proof (count_nonneg (edge_eqb (a, b)) (flat_map tedges K)). lia.
  Qed.
  Lemma not_in_count e (l : list (point * point)) : ~ In e l -> count (edge_eqb e) l = 0.
  Proof.
    intros N. pose proof (count_nonneg (edge_eqb e) l). destruct (Z.eq_dec (count (edge_eqb e) l) 0); [assumption|].
    exfalso. apply N. apply count_pos_in. lia.
  Qed.
  Lemma nodup_count e (l : list (point * point)) : NoDup l -> In e l -> count (edge_eqb e) l = 1.
  Proof.
    intros ND I. apply in_split in I. destruct I as (l1 & l2 & ->). apply NoDup_remove_2 in ND. rewrite count_app, count_cons, edge_eqb_refl.
    rewrite !not_in_count by (intros J; apply ND, in_or_app; auto). reflexivity.
  Qed.
  Lemma edge_in_dec (e : point * point) l : {In e l} + {~ In e l}.
  Proof. apply in_dec. intros [a b] [c d]. destruct (point_eq_dec a c), (point_eq_dec b d); [left; congruence|right; congruence|right; congruence|right; congruence]. Qed.

  Lemma net_E a b : count (edge_eqb (a, b)) E - count (edge_eqb (b, a)) E = net B a b.
  Proof.
    unfold net. assert (C : forall a b, In (a, b) (flat_map tedges B) -> count (edge_eqb (a, b)) (flat_map tedges B) = 1).
    { intros c d I. pose proof (B_once c d). pose proof (in_count _ _ I). lia. }
    destruct (edge_in_dec (a, b) (flat_map tedges B)) as [I|I], (edge_in_dec (b, a) (flat_map tedges B)) as [J|J].
    - rewrite (C a b I), (C b a J). rewrite !not_in_count by (rewrite HE2; tauto). reflexivity.
    - rewrite (C a b I), (not_in_count (b, a) _ J). rewrite (nodup_count (a, b)) by (auto; apply HE2; auto). rewrite (not_in_count (b, a)) by (rewrite HE2; tauto). reflexivity.
    - rewrite (C b a J), (not_in_count (a, b) _ I). rewrite (nodup_count (b, a)) by (auto; apply HE2; auto). rewrite (not_in_count (a, b)) by (rewrite HE2; tauto). reflexivity.
    - rewrite (not_in_count (a, b) _ I), (not_in_count (b, a) _ J). rewrite !not_in_count by (rewrite HE2; tauto). reflexivity.
  Qed.

  (** As many boundary edges leave a corner as enter it. *)
  Definition leave (v : point) (e : point * point) : Z := b2z (point_eqb (fst e) v) - b2z (point_eqb (snd e) v).
  Lemma balance v : ssum (leave v) E = 0.
  Proof.
    rewrite (chain_eq (leave v)) with (l' := flat_map tedges B).
    - clear. induction B as [|t l IH]; [reflexivity|]. cbn [flat_map]. rewrite ssum_app, IH. unfold ssum, tedges, leave. cbn [map sumZ fst snd]. lia.
    - intros a b. unfold leave. cbn [fst snd]. lia.
    - intros a b. apply net_E.
  Qed.

  Lemma net_fan a b : net fan a b = net B a b.
  Proof.
    rewrite <- net_E. unfold net, fan.
    assert (G : forall l a b, count (edge_eqb (a, b)) (flat_map tedges (map (fun e => Tri (fst e) (snd e) p) l)) =
      count (edge_eqb (a, b)) l + b2z (point_eqb b p) * count (fun e => point_eqb (snd e) a) l + b2z (point_eqb a p) * count (fun e => point_eqb (fst e) b) l).
    { clear. induction l as [|[u v] l IH]; intros a b; [cbn; lia|]. cbn [map flat_map]. rewrite count_app, IH, !count_cons. unfold tedges. cbn [ta tb tc fst snd].
      rewrite !count_cons. change (count _ []) with 0. unfold edge_eqb at 2 3. cbn [fst snd].
      assert (S : forall x y, point_eqb x y = point_eqb y x) by (intros; unfold point_eqb; rewrite (Z.eqb_sym (px x)), (Z.eqb_sym (py x)); reflexivity).
      rewrite (S v a), (S u b). unfold b2z. destruct (point_eqb a v), (point_eqb b p), (point_eqb a p), (point_eqb b u); cbn [andb]; lia. }
    rewrite !G.
    assert (H : forall v, count (fun e => point_eqb (fst e) v) E = count (fun e => point_eqb (snd e) v) E).
    { intros v. pose proof (balance v) as Z0.
      assert (Q : forall l, ssum (leave v) l = count (fun e => point_eqb (fst e) v) l - count (fun e => point_eqb (snd e) v) l).
      { clear. induction l as [|e l IH]; [reflexivity|]. rewrite ssum_cons, IH, !count_cons. unfold leave. lia. }
      rewrite Q in Z0. lia. }
    rewrite !H. lia.
  Qed.

  (** p becomes a corner. *)
  Lemma E_nonempty : E <> [].
  Proof.
    intros E0. destruct (tiling_covers s (B ++ K) (at_pt p) TL eq_refl Hp) as (t & It & Wt & Ct).
    assert (Pt : pos t) by (eapply Forall_forall; [apply (t_pos _ _ TL)|exact It]).
    assert (IB : In t B).
    { apply in_app_or in It. destruct It as [It|It]; [exact It|]. exfalso. pose proof (HK t It) as Q.
      unfold within in Ct. rewrite !oloc_at in Ct. destruct (closed_in_circle (ta t) (tb t) (tc t) p Pt) as [Y _]; try tauto. unfold tinc in Q. lia. }
    pose proof (winds_In (at_pt p) B t eq_refl ltac:(apply Forall_forall; exact B_pos) IB) as W.
    assert (Z0 : winds (at_pt p) B = 0).
    { unfold winds. rewrite (chain_eq (chi (at_pt p))) with (l' := E); [now rewrite E0|apply chi_anti|]. intros a b. symmetry. apply net_E. }
    lia.
  Qed.

  (** Other corners stay corners. *)
  Lemma keep_vertex v : In v P -> v <> p -> exists t, In t K /\ In v (verts t).
  Proof.
    intros Hv N.
    (* a location next to v, away from p *)
    set (dev := fun t => Z.abs (orient (ta t) (tb t) p - orient (ta t) (tb t) v) + Z.abs (orient (tb t) (tc t) p - orient (tb t) (tc t) v) + Z.abs (orient (tc t) (ta t) p - orient (tc t) (ta t) v)).
    assert (exists M, 1 <= M /\ dev s < M /\ forall t, In t (B ++ K) -> dev t < M) as (M & M1 & Ms & MT).
    { generalize (B ++ K). intros l. induction l as [|t l (M & M1 & Ms & IH)].
      - exists (1 + dev s + 1). unfold dev. split; [lia|]. split; [lia|]. intros t [].
      - exists (M + dev t + 1). assert (0 <= dev t) by (unfold dev; lia). split; [lia|]. split; [lia|]. intros t' [<-|I]; [lia|]. specialize (IH t' I). lia. }
    set (q := Loc (M * px v - (px p - px v)) (M * py v - (py p - py v)) M).
    assert (Q : forall a b, oloc a b q = M * orient a b v - (orient a b p - orient a b v)) by (intros; unfold q, oloc, orient; cbn [lx ly lm]; ring).
    assert (Iq : inside q s).
    { pose proof (dt_inner _ _ _ HT v Hv) as I. unfold inner, inside in *. rewrite !oloc_at in I. rewrite !Q.
      unfold dev in Ms. destruct I as (I1 & I2 & I3).
      set (x1 := orient (ta s) (tb s) v) in *. set (x2 := orient (tb s) (tc s) v) in *. set (x3 := orient (tc s) (ta s) v) in *. clearbody x1 x2 x3.
      assert (M * x1 >= M) by nia. assert (M * x2 >= M) by nia. assert (M * x3 >= M) by nia. lia. }
    destruct (tiling_covers s (B ++ K) q TL ltac:(cbn; lia) Iq) as (t & It & _ & Ct).
    assert (Pt : pos t) by (eapply Forall_forall; [apply (t_pos _ _ TL)|exact It]).
    specialize (MT t It). unfold dev in MT. unfold within in Ct. rewrite !Q in Ct.
    destruct t as [a b c]. unfold pos in Pt. cbn [ta tb tc] in *.
    assert (0 <= orient a b v /\ 0 <= orient b c v /\ 0 <= orient c a v) as (V1 & V2 & V3).
    { set (x1 := orient a b v) in *. set (x2 := orient b c v) in *. set (x3 := orient c a v) in *. clearbody x1 x2 x3.
      repeat split; match goal with |- 0 <= ?x => destruct (Z_lt_le_dec x 0); [|assumption]; exfalso; assert (M * x <= - M) by nia; lia end. }
    destruct (closed_in_circle a b c v Pt V1 V2 V3) as [_ Hvert].
    assert (Iv : In v (verts s ++ P)) by (apply in_or_app; auto).
    pose proof (dt_empty _ _ _ HT2 (Tri a b c) v It Iv) as Ev. unfold tinc in Ev. cbn [ta tb tc] in Ev.
    assert (v = a \/ v = b \/ v = c) as Vert.
    { apply Hvert. destruct (closed_in_circle a b c v Pt V1 V2 V3) as [Y _]. lia. }
    (* p lies in the opposite cone at v, so outside the circle *)
    assert (Out : forall b c, 0 < orient v b c -> 0 <= M * orient v b v - (orient v b p - orient v b v) -> 0 <= M * orient c v v - (orient c v p - orient c v v) -> incirc v b c p < 0).
    { clear - N. intros b c O U W. assert (Z1 : orient v b v = 0) by (unfold orient; ring). assert (Z2 : orient c v v = 0) by (unfold orient; ring).
      rewrite Z1 in U. rewrite Z2 in W. assert (U' : orient v b p <= 0) by lia. assert (W' : orient c v p <= 0) by lia.
      assert (I : incirc v b c p = - orient v b c * d2 p v + d2 b v * orient c v p + d2 c v * orient v b p) by (unfold incirc, orient, d2; ring).
      rewrite I. pose proof (d2_pos p v (not_eq_sym N)). pose proof (d2_nonneg b v). pose proof (d2_nonneg c v). nia. }
    exists (Tri a b c). assert (In v (verts (Tri a b c))) by (cbn; intuition auto). split; [|assumption].
    destruct Ct as (C1 & C2 & C3).
    assert (Neg : tinc (Tri a b c) p < 0).
    { unfold tinc. cbn [ta tb tc]. destruct Vert as [-> | [-> | ->]].
      - apply Out; auto.
      - rewrite <- incirc_rot. apply Out; auto. rewrite orient_rot3; auto.
      - rewrite <- incirc_rot, <- incirc_rot. apply Out; auto. rewrite <- orient_rot3, orient_rot3, orient_rot3. rewrite orient_rot3, <- (orient_rot3 a b c). rewrite orient_rot3. unfold orient in *. lia. }
    apply in_app_or in It. destruct It as [It|It]; [|exact It]. pose proof (HB _ It). lia.
  Qed.

  Theorem insert_delaunay : delaunay_tiling s (p :: P) (K ++ fan).
  Proof.
    assert (PF : Forall pos fan).
    { apply Forall_forall. intros t It. apply in_map_iff in It. destruct It as ([a b] & <- & I). unfold pos. cbn. apply star, I. }
    split.
    - split.
      + intros a b. rewrite net_app, net_fan. rewrite <- (t_net _ _ TL a b), net_app. lia.
      + apply Forall_app. split; [|exact PF]. pose proof (t_pos _ _ TL) as Q. apply Forall_app in Q. tauto.
      + apply TL.
    - intros x [<-|I]; [exact Hp|]. eapply dt_inner; eauto.
    - intros t v It Iv. apply in_app_or in It. destruct It as [It|It].
      + assert (IT : In t (B ++ K)) by (apply in_or_app; auto). pose proof (dt_verts _ _ _ HT2 t v IT Iv) as Q. apply in_app_or in Q. apply in_or_app. cbn. tauto.
      + apply in_map_iff in It. destruct It as ([a b] & <- & I). destruct (boundary a b I) as (c & _ & _ & _ & Ia & Ib & _).
        cbn in Iv. rewrite in_app_iff in *. cbn [In]. destruct Iv as [<-|[<-|[<-|[]]]]; tauto.
    - intros t x It Hx. apply in_app_or in It. destruct It as [It|It].
      + assert (x = p \/ In x (verts s ++ P)) as [->|Hx'] by (rewrite in_app_iff in *; cbn [In] in Hx; intuition auto).
        * pose proof (HK t It). lia.
        * eapply dt_empty; [exact HT2|apply in_or_app; auto|exact Hx'].
      + apply in_map_iff in It. destruct It as ([a b] & <- & I). unfold tinc. cbn [ta tb tc fst snd]. eapply fan_empty; eauto.
    - intros x Hx. destruct (point_eq_dec x p) as [->|N].
      + assert (exists e, In e E) as (e & Ie) by (pose proof E_nonempty as NE; destruct E as [|e E']; [congruence|exists e; left; reflexivity]).
        exists (Tri (fst e) (snd e) p). split; [apply in_or_app; right; apply in_map_iff; exists e; auto|cbn; auto].
      + destruct Hx as [->|Hx]; [congruence|]. destruct (keep_vertex x Hx N) as (t & It & Iv). exists t. split; [apply in_or_app; auto|exact Iv].
  Qed.
End Insert.

(** The initial tiling. *)
Lemma start_delaunay s : pos s -> delaunay_tiling s [] [s].
Proof.
  intros H. split.
  - split; auto.
  - intros x [].
  - intros t v [<-|[]] I. rewrite app_nil_r. exact I.
  - intros t x [<-|[]] I. rewrite app_nil_r in I. unfold tinc. destruct I as [<-|[<-|[<-|[]]]].
    + rewrite incirc_at. lia.
    + rewrite <- incirc_rot, incirc_at. lia.
    + rewrite <- incirc_rot, <- incirc_rot, incirc_at. lia.
  - intros x [].
Qed.
