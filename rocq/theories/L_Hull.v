(** Separation in the plane: finitely many vectors have a combination that vanishes, or lie on
    one side of a line through the origin; and the cell of a site is spanned by its vertices. *)
From Coq Require Import ZArith List Bool Lia Psatz.
From Verif Require Import M_Geom S_Geom M_Raster S_Raster S_Delaunay L_Raster1 L_Raster6 L_Plane L_BW L_Circle S_Voronoi L_VorGeo.
Import ListNotations.
Open Scope Z_scope.

Definition vec : Type := Z * Z.
Definition dot (u v : vec) : Z := fst u * fst v + snd u * snd v.
Definition cross (u v : vec) : Z := fst u * snd v - snd u * fst v.

(** The weights sum to [s], the weighted vectors to (x, y). *)
Inductive comb (P : vec -> Prop) : Z -> Z -> Z -> Prop :=
| comb_0 : comb P 0 0 0
| comb_add w p s x y : P p -> 0 <= w -> comb P s x y -> comb P (s + w) (x + w * fst p) (y + w * snd p).
Lemma comb_weaken (P P' : vec -> Prop) s x y : (forall p, P p -> P' p) -> comb P s x y -> comb P' s x y.
Proof. intros H C. induction C; constructor; auto. Qed.
Lemma comb_3 (P : vec -> Prop) a b c p q r : P p -> P q -> P r -> 0 <= a -> 0 <= b -> 0 <= c ->
  comb P (a + b + c) (a * fst p + b * fst q + c * fst r) (a * snd p + b * snd q + c * snd r).
Proof.
  intros. pose proof (comb_add P c r _ _ _ ltac:(assumption) ltac:(assumption) (comb_add P b q _ _ _ ltac:(assumption) ltac:(assumption) (comb_add P a p 0 0 0 ltac:(assumption) ltac:(assumption) (comb_0 P)))) as K.
  rewrite !Z.add_0_l in K. exact K.
Qed.

Lemma both_zero (u p z : vec) : dot u p <> 0 -> dot u z = 0 -> cross p z = 0 -> fst z = 0 /\ snd z = 0.
Proof.
  unfold dot, cross. destruct u as [a b], p as [c d], z as [e f]. cbn [fst snd]. intros N D C.
  (* (a c + b d) e = c (a e + b f) - b (c f - d e) *)
  assert (E1 : (a * c + b * d) * e = c * (a * e + b * f) - b * (c * f - d * e)) by ring.
  assert (E2 : (a * c + b * d) * f = d * (a * e + b * f) + a * (c * f - d * e)) by ring.
  rewrite D, C in E1, E2. split; [apply Z.mul_eq_0_r with (a * c + b * d)|apply Z.mul_eq_0_r with (a * c + b * d)]; lia.
Qed.
(** A vector behind the line, and two on different sides of it. *)
Lemma vanish (P : vec -> Prop) (u p q r : vec) : P p -> P q -> P r -> dot u p <= 0 -> 0 < dot u q -> 0 < dot u r -> 0 <= cross p q -> cross p r <= 0 -> p <> (0, 0) -> exists s, 0 < s /\ comb P s 0 0.
Proof.
  intros Pp Pq Pr Up Uq Ur Cq Cr Np.
  assert (NZ : dot u p <> 0 \/ (dot u p = 0 /\ forall z, cross p z = 0 -> dot u z = 0)).
  { destruct (Z.eq_dec (dot u p) 0) as [E|E]; [right; split; [exact E|]|left; exact E]. intros z C. destruct u as [a b], p as [c d], z as [e f]. unfold dot, cross in *. cbn [fst snd] in *.
    (* c (a e + b f) = e (a c + b d) + b (c f - d e) *)
    assert (E1 : c * (a * e + b * f) = e * (a * c + b * d) + b * (c * f - d * e)) by ring.
    assert (E2 : d * (a * e + b * f) = f * (a * c + b * d) - a * (c * f - d * e)) by ring.
    rewrite E, C in E1, E2. destruct (Z.eq_dec c 0) as [->|Nc].
    - destruct (Z.eq_dec d 0) as [->|Nd]; [destruct Np; reflexivity|]. apply Z.mul_eq_0_r with d; lia.
    - apply Z.mul_eq_0_r with c; lia. }
  assert (D : exists a b, 0 <= a /\ 0 <= b /\ 0 < a + b /\ a * cross p q + b * cross p r = 0).
  { destruct (Z.eq_dec (cross p q) 0) as [E|E]; [exists 1, 0; lia|]. exists (- cross p r), (cross p q). repeat split; try lia. }
  destruct D as (a & b & Ha & Hb & Hab & E). set (y := (a * fst q + b * fst r, a * snd q + b * snd r)).
  assert (Cy : cross p y = 0) by (rewrite <- E; unfold cross, y; cbn [fst snd]; ring).
  assert (Uy : dot u y = a * dot u q + b * dot u r) by (unfold dot, y; cbn [fst snd]; ring).
  assert (Py : 0 < dot u y) by (rewrite Uy; nia).
  destruct NZ as [NZ|[Z0 NZ]]; [|specialize (NZ y Cy); lia].
  set (z := (- dot u p * fst y + dot u y * fst p, - dot u p * snd y + dot u y * snd p)).
  assert (Z1 : dot u z = 0) by (unfold z; unfold dot at 1; cbn [fst snd]; unfold dot; ring).
  assert (Z2 : cross p z = - dot u p * cross p y) by (unfold z, cross; cbn [fst snd]; ring). rewrite Cy, Z.mul_0_r in Z2.
  destruct (both_zero u p z NZ Z1 Z2) as [F S].
  exists (- dot u p * a + - dot u p * b + dot u y). split; [nia|].
  pose proof (comb_3 P (- dot u p * a) (- dot u p * b) (dot u y) q r p Pq Pr Pp ltac:(nia) ltac:(nia) ltac:(lia)) as K.
  replace (- dot u p * a * fst q + - dot u p * b * fst r + dot u y * fst p) with (fst z) in K by (unfold z, y; cbn [fst snd]; ring).
  replace (- dot u p * a * snd q + - dot u p * b * snd r + dot u y * snd p) with (snd z) in K by (unfold z, y; cbn [fst snd]; ring).
  rewrite F, S in K. exact K.
Qed.
Lemma beyond (g : vec -> Z) (l : list vec) : exists K, 0 < K /\ forall x, In x l -> Z.abs (g x) < K.
Proof.
  induction l as [|x l (K & HK & IH)]; [exists 1; split; [lia|intros x []]|]. exists (K + Z.abs (g x)). split; [lia|]. intros y [<-|I]; [lia|]. specialize (IH y I). lia.
Qed.
Lemma separation (l : list vec) : (exists s, 0 < s /\ comb (fun p => In p l) s 0 0) \/ exists u, forall p, In p l -> 0 < dot u p.
Proof.
  induction l as [|p l IH]; [right; exists (0, 0); intros p []|].
  destruct IH as [(s & Hs & C)|(u & Hu)].
  { left. exists s. split; [exact Hs|]. eapply comb_weaken; [|exact C]. intros q Hq. right. exact Hq. }
  destruct (Z_lt_ge_dec 0 (dot u p)) as [Hp|Hp]; [right; exists u; intros q [<-|Hq]; auto|].
  destruct (Z.eq_dec (fst p) 0) as [E1|E1]; [destruct (Z.eq_dec (snd p) 0) as [E2|E2]|].
  { left. exists 1. split; [lia|]. pose proof (comb_add (fun q => In q (p :: l)) 1 p 0 0 0 (or_introl eq_refl) ltac:(lia) (comb_0 _)) as K. rewrite E1, E2 in K. exact K. }
  all: assert (Np : p <> (0, 0)) by (intros ->; cbn in *; congruence).
  all: assert (PP : 0 < dot p p) by (unfold dot; nia).
  all: destruct (forallb (fun q => 0 <? cross p q) l) eqn:EA.
  1,3: right; rewrite forallb_forall in EA; destruct (beyond (dot p) l) as (K & HK & B); exists (- K * snd p + fst p, K * fst p + snd p); intros q [<-|Hq];
    [assert (E : dot (- K * snd p + fst p, K * fst p + snd p) p = dot p p) by (unfold dot; cbn [fst snd]; ring); lia|];
    specialize (EA q Hq); apply Z.ltb_lt in EA; specialize (B q Hq); assert (E : dot (- K * snd p + fst p, K * fst p + snd p) q = K * cross p q + dot p q) by (unfold dot, cross; cbn [fst snd]; ring); nia.
  all: destruct (forallb (fun q => cross p q <? 0) l) eqn:EB.
  1,3: right; rewrite forallb_forall in EB; destruct (beyond (dot p) l) as (K & HK & B); exists (K * snd p + fst p, - K * fst p + snd p); intros q [<-|Hq];
    [assert (E : dot (K * snd p + fst p, - K * fst p + snd p) p = dot p p) by (unfold dot; cbn [fst snd]; ring); lia|];
    specialize (EB q Hq); apply Z.ltb_lt in EB; specialize (B q Hq); assert (E : dot (K * snd p + fst p, - K * fst p + snd p) q = - K * cross p q + dot p q) by (unfold dot, cross; cbn [fst snd]; ring); nia.
  all: left; assert (X : exists r, In r l /\ cross p r <= 0) by (apply not_true_iff_false in EA; destruct (existsb (fun q => cross p q <=? 0) l) eqn:EX; [apply existsb_exists in EX as (r & Hr & L); apply Z.leb_le in L; eauto|]; exfalso; apply EA, forallb_forall; intros q Hq; apply Z.ltb_lt; destruct (Z_lt_ge_dec 0 (cross p q)); [assumption|]; assert (T : existsb (fun q => cross p q <=? 0) l = true) by (apply existsb_exists; exists q; split; [exact Hq|apply Z.leb_le; lia]); congruence).
  all: assert (Y : exists r, In r l /\ 0 <= cross p r) by (apply not_true_iff_false in EB; destruct (existsb (fun q => 0 <=? cross p q) l) eqn:EX; [apply existsb_exists in EX as (r & Hr & L); apply Z.leb_le in L; eauto|]; exfalso; apply EB, forallb_forall; intros q Hq; apply Z.ltb_lt; destruct (Z_lt_ge_dec (cross p q) 0); [assumption|]; assert (T : existsb (fun q => 0 <=? cross p q) l = true) by (apply existsb_exists; exists q; split; [exact Hq|apply Z.leb_le; lia]); congruence).
  all: destruct X as (r & Ir & Cr), Y as (q & Iq & Cq); apply (vanish (fun z => In z (p :: l)) u p q r); try assumption; try lia; try (left; reflexivity); try (right; assumption); try (apply Hu; assumption).
Qed.

(** * The cell of a site *)
(** A step from [p] in any direction ends in a triangle at [p]. *)
Lemma step_triangle s P T p dx dy : delaunay_tiling s P T -> inner s p -> In p (verts s ++ P) ->
  exists t a b, In t T /\ In p (verts t) /\ In a (verts t) /\ In b (verts t) /\ 0 < orient p a b /\ 0 <= cross (px a - px p, py a - py p) (dx, dy) /\ 0 <= cross (dx, dy) (px b - px p, py b - py p).
Proof.
  intros DT IP Ip.
  set (lin := fun e : point * point => (px (snd e) - px (fst e)) * dy - (py (snd e) - py (fst e)) * dx).
  destruct (multiplier lin (flat_map tedges (s :: T))) as (K & HK & BK).
  set (q := Loc (K * px p + dx) (K * py p + dy) K).
  assert (OL : forall e, oloc (fst e) (snd e) q = K * orient (fst e) (snd e) p + lin e) by (intros e; unfold oloc, orient, lin, q; cbn [lx ly lm]; ring).
  assert (OP : forall e, In e (flat_map tedges (s :: T)) -> 0 < orient (fst e) (snd e) p -> 0 < oloc (fst e) (snd e) q) by (intros e Ie He; rewrite OL; specialize (BK e Ie); nia).
  assert (ON : forall e, In e (flat_map tedges (s :: T)) -> 0 <= oloc (fst e) (snd e) q -> 0 <= orient (fst e) (snd e) p) by (intros e Ie He; rewrite OL in He; specialize (BK e Ie); nia).
  assert (E3 : forall t, In t (s :: T) -> In (ta t, tb t) (flat_map tedges (s :: T)) /\ In (tb t, tc t) (flat_map tedges (s :: T)) /\ In (tc t, ta t) (flat_map tedges (s :: T))).
  { intros t It. repeat split; apply in_flat_map; exists t; (split; [exact It|]); unfold tedges; cbn [In]; auto. }
  assert (IS : inside q s).
  { destruct (E3 s (or_introl eq_refl)) as (e1 & e2 & e3). unfold inner, inside in IP. rewrite !oloc_at in IP. destruct IP as (i1 & i2 & i3).
    repeat split; [apply (OP _ e1 i1)|apply (OP _ e2 i2)|apply (OP _ e3 i3)]. }
  destruct (tiling_covers s T q (dt_tiling _ _ _ DT) ltac:(cbn; lia) IS) as (t & It & _ & Wt).
  pose proof (t_pos _ _ (dt_tiling _ _ _ DT)) as PT. rewrite Forall_forall in PT. specialize (PT t It). unfold pos in PT.
  destruct (E3 t (or_intror It)) as (e1 & e2 & e3). unfold within in Wt. destruct Wt as (w1 & w2 & w3).
  assert (V : p = ta t \/ p = tb t \/ p = tc t).
  { pose proof (ON _ e1 w1) as o1. pose proof (ON _ e2 w2) as o2. pose proof (ON _ e3 w3) as o3. cbn [fst snd] in o1, o2, o3.
    destruct (closed_in_circle _ _ _ p PT o1 o2 o3) as [C1 C2]. pose proof (dt_empty _ _ _ DT t p It Ip) as C3. unfold tinc in C3. apply C2. lia. }
  assert (Q : forall a b, oloc p a q = cross (px a - px p, py a - py p) (dx, dy) /\ oloc b p q = cross (dx, dy) (px b - px p, py b - py p)) by (intros a b; unfold oloc, cross, q; cbn [lx ly lm fst snd]; split; ring).
  assert (A : forall a b, In p (verts t) -> In a (verts t) -> In b (verts t) -> 0 < orient p a b -> 0 <= oloc p a q -> 0 <= oloc b p q ->
    exists t a b, In t T /\ In p (verts t) /\ In a (verts t) /\ In b (verts t) /\ 0 < orient p a b /\ 0 <= cross (px a - px p, py a - py p) (dx, dy) /\ 0 <= cross (dx, dy) (px b - px p, py b - py p)).
  { intros a b Vp Va Vb O A1 A2. destruct (Q a b) as [Q1 Q2]. rewrite Q1 in A1. rewrite Q2 in A2. exists t, a, b. auto 10. }
  destruct V as [E|[E|E]].
  - apply (A (tb t) (tc t)); try (rewrite E; assumption); cbn; auto.
  - apply (A (tc t) (ta t)); try (rewrite E; assumption); try (cbn; auto; fail). rewrite E. unfold orient in *. lia.
  - apply (A (ta t) (tb t)); try (rewrite E; assumption); try (cbn; auto; fail). rewrite E. unfold orient in *. lia.
Qed.
