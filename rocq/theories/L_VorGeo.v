(** The circumcentres at a point are the Voronoi vertices of its cell. *)
From Coq Require Import ZArith List Bool Lia Psatz.
From Verif Require Import M_Geom S_Geom M_Raster S_Raster S_Delaunay L_Raster1 L_Raster6 L_Plane L_BW L_Circle S_Voronoi.
Import ListNotations.
Open Scope Z_scope.

(** Affine functions at locations. *)
Lemma bary_affine al be ga a b c q :
  oloc b c q * (al * px a + be * py a + ga) + oloc c a q * (al * px b + be * py b + ga) + oloc a b q * (al * px c + be * py c + ga)
  = orient a b c * (al * lx q + be * ly q + ga * lm q).
Proof. unfold oloc, orient. ring. Qed.

Section Pair.
  Context (X1 Y1 M1 X2 Y2 M2 : Z) (p a b u v w : point) (q : loc).
  Hypothesis (HM1 : 0 < M1) (HM2 : 0 < M2).
  Hypothesis (Ea : sdist2 X1 Y1 M1 a = sdist2 X1 Y1 M1 p) (Eb : sdist2 X1 Y1 M1 b = sdist2 X1 Y1 M1 p).
  Hypothesis (Ev : sdist2 X2 Y2 M2 v = sdist2 X2 Y2 M2 u) (Ew : sdist2 X2 Y2 M2 w = sdist2 X2 Y2 M2 u).
  Hypothesis (N1 : forall z, In z [u; v; w] -> sdist2 X1 Y1 M1 p <= sdist2 X1 Y1 M1 z).
  Hypothesis (N2 : forall z, In z [p; a; b] -> sdist2 X2 Y2 M2 u <= sdist2 X2 Y2 M2 z).
  Hypothesis (In1 : inside q (Tri p a b)) (In2 : within q (Tri u v w)) (P1 : 0 < orient p a b) (P2 : 0 < orient u v w).

  Let al := 2 * M1 * M2 * (M1 * X2 - M2 * X1).
  Let be := 2 * M1 * M2 * (M1 * Y2 - M2 * Y1).
  Let f0 z := M2 * M2 * sdist2 X1 Y1 M1 z - M1 * M1 * sdist2 X2 Y2 M2 z.
  Let ga := (M2 * M2 * (X1 * X1 + Y1 * Y1 - sdist2 X1 Y1 M1 p) - M1 * M1 * (X2 * X2 + Y2 * Y2 - sdist2 X2 Y2 M2 u)).
  Let f z := al * px z + be * py z + ga.
  Lemma f_val z : f z = M2 * M2 * (sdist2 X1 Y1 M1 z - sdist2 X1 Y1 M1 p) - M1 * M1 * (sdist2 X2 Y2 M2 z - sdist2 X2 Y2 M2 u).
  Proof. unfold f, al, be, ga. generalize (sdist2 X1 Y1 M1 p), (sdist2 X2 Y2 M2 u). intros. unfold sdist2. ring. Qed.
  Lemma f_neg z : In z [p; a; b] -> f z <= 0.
  Proof.
    intros I. rewrite f_val. pose proof (N2 z I) as Q. assert (E : sdist2 X1 Y1 M1 z = sdist2 X1 Y1 M1 p) by (destruct I as [<-|[<-|[<-|[]]]]; auto).
    rewrite E, Z.sub_diag, Z.mul_0_r. assert (0 <= M1 * M1 * (sdist2 X2 Y2 M2 z - sdist2 X2 Y2 M2 u)) by (apply Z.mul_nonneg_nonneg; [nia|lia]). lia.
  Qed.
  Lemma f_pos z : In z [u; v; w] -> 0 <= f z.
  Proof.
    intros I. rewrite f_val. pose proof (N1 z I) as Q. assert (E : sdist2 X2 Y2 M2 z = sdist2 X2 Y2 M2 u) by (destruct I as [<-|[<-|[<-|[]]]]; auto).
    rewrite E, Z.sub_diag, Z.mul_0_r. assert (0 <= M2 * M2 * (sdist2 X1 Y1 M1 z - sdist2 X1 Y1 M1 p)) by (apply Z.mul_nonneg_nonneg; [nia|lia]). lia.
  Qed.
  Lemma same_circle : M1 * X2 = M2 * X1 /\ M1 * Y2 = M2 * Y1.
  Proof.
    pose proof (bary_affine al be ga p a b q) as B1. pose proof (bary_affine al be ga u v w q) as B2. fold (f p) (f a) (f b) in B1. fold (f u) (f v) (f w) in B2.
    pose proof (f_neg p ltac:(cbn; auto)) as F1. pose proof (f_neg a ltac:(cbn; auto)) as F2. pose proof (f_neg b ltac:(cbn; auto)) as F3.
    pose proof (f_pos u ltac:(cbn; auto)) as G1. pose proof (f_pos v ltac:(cbn; auto)) as G2. pose proof (f_pos w ltac:(cbn; auto)) as G3.
    unfold inside in In1. unfold within in In2. cbn [ta tb tc] in In1, In2. destruct In1 as (I1 & I2 & I3). destruct In2 as (J1 & J2 & J3).
    set (F := al * lx q + be * ly q + ga * lm q) in *.
    assert (F0 : 0 <= F).
    { assert (0 <= orient u v w * F) by (rewrite <- B2; repeat apply Z.add_nonneg_nonneg; apply Z.mul_nonneg_nonneg; assumption). nia. }
    assert (Q1 : oloc a b q * f p <= 0) by (apply Z.mul_nonneg_nonpos; lia). assert (Q2 : oloc b p q * f a <= 0) by (apply Z.mul_nonneg_nonpos; lia).
    assert (Q3 : oloc p a q * f b <= 0) by (apply Z.mul_nonneg_nonpos; lia).
    assert (S0 : 0 <= orient p a b * F) by (apply Z.mul_nonneg_nonneg; lia).
    assert (Zp : f p = 0) by (assert (Z0 : oloc a b q * f p = 0) by lia; apply Z.mul_eq_0 in Z0; lia).
    assert (Za : f a = 0) by (assert (Z0 : oloc b p q * f a = 0) by lia; apply Z.mul_eq_0 in Z0; lia).
    assert (Zb : f b = 0) by (assert (Z0 : oloc p a q * f b = 0) by lia; apply Z.mul_eq_0 in Z0; lia).
    assert (Ex : al * orient p a b = (f a - f p) * (py b - py p) - (f b - f p) * (py a - py p)) by (unfold f, orient; ring).
    assert (Ey : be * orient p a b = (f b - f p) * (px a - px p) - (f a - f p) * (px b - px p)) by (unfold f, orient; ring).
    rewrite Zp, Za, Zb in Ex, Ey. assert (A0 : al = 0) by (apply (Z.mul_cancel_r _ _ (orient p a b)); lia). assert (B0 : be = 0) by (apply (Z.mul_cancel_r _ _ (orient p a b)); lia).
    unfold al, be in A0, B0. apply Z.mul_eq_0 in A0, B0. destruct A0 as [A0|A0]; [nia|]. destruct B0 as [B0|B0]; [nia|]. lia.
  Qed.
End Pair.

(** Sites are not nearer to the centre of a Delaunay triangle than its corners. *)
Definition centred (t : tri) (X Y M : Z) : Prop := 0 < M /\ sdist2 X Y M (tb t) = sdist2 X Y M (ta t) /\ sdist2 X Y M (tc t) = sdist2 X Y M (ta t).
Lemma centred_far s P T t X Y M : delaunay_tiling s P T -> In t T -> centred t X Y M -> forall z, In z (verts s ++ P) -> sdist2 X Y M (ta t) <= sdist2 X Y M z.
Proof.
  intros DT I (HM & Eb & Ec) z Iz. pose proof (dt_empty _ _ _ DT t z I Iz) as E. unfold tinc in E.
  pose proof (t_pos _ _ (dt_tiling _ _ _ DT)) as PT. rewrite Forall_forall in PT. specialize (PT t I). unfold pos in PT.
  pose proof (circle_identity (ta t) (tb t) (tc t) z X Y M Eb Ec) as C.
  assert (M * M * incirc (ta t) (tb t) (tc t) z <= 0) by (apply Z.mul_nonneg_nonpos; nia). nia.
Qed.

Lemma triangle_vertex s P T t p X Y M : delaunay_tiling s P T -> In t T -> In p (verts t) -> centred t X Y M -> voronoi_vertex (verts s ++ P) p X Y M.
Proof.
  intros DT I V C. pose proof (centred_far _ _ _ _ _ _ _ DT I C) as F. pose proof (dt_verts _ _ _ DT t) as DV. destruct C as (HM & Eb & Ec).
  pose proof (t_pos _ _ (dt_tiling _ _ _ DT)) as PT. rewrite Forall_forall in PT. specialize (PT t I). unfold pos in PT.
  split; [exact HM|]. split; [eapply DV; eauto|].
  assert (Ep : sdist2 X Y M p = sdist2 X Y M (ta t)) by (destruct V as [<-|[<-|[<-|[]]]]; auto). split; [intros z Iz; rewrite Ep; apply F, Iz|].
  assert (Va : In (ta t) (verts t)) by (cbn; auto). assert (Vb : In (tb t) (verts t)) by (cbn; auto). assert (Vc : In (tc t) (verts t)) by (cbn; auto).
  destruct V as [<-|[<-|[<-|[]]]].
  - exists (tb t), (tc t). repeat split; eauto. lia.
  - exists (tc t), (ta t). repeat split; eauto; [|lia]. unfold orient in *. lia.
  - exists (ta t), (tb t). repeat split; eauto; [|lia]. unfold orient in *. lia.
Qed.

(** A multiplier larger than finitely many numbers. *)
Lemma multiplier {A} (g : A -> Z) (l : list A) : exists K, 2 < K /\ forall x, In x l -> Z.abs (g x) < K.
Proof.
  induction l as [|x l (K & HK & IH)]; [exists 3; split; [lia|intros x []]|]. exists (K + Z.abs (g x)). split; [lia|]. intros y [<-|I]; [lia|]. specialize (IH y I). lia.
Qed.

Lemma vertex_triangle s P T p X Y M : delaunay_tiling s P T -> inner s p -> voronoi_vertex (verts s ++ P) p X Y M ->
  exists t, In t T /\ In p (verts t) /\ forall X' Y' M', centred t X' Y' M' -> M * X' = M' * X /\ M * Y' = M' * Y.
Proof.
  intros DT IP (HM & Ip & F & a0 & b0 & Ia0 & Ib0 & Ho & Ea0 & Eb0).
  assert (G : exists a b, In a (verts s ++ P) /\ In b (verts s ++ P) /\ 0 < orient p a b /\ sdist2 X Y M a = sdist2 X Y M p /\ sdist2 X Y M b = sdist2 X Y M p).
  { destruct (Z_lt_ge_dec 0 (orient p a0 b0)); [exists a0, b0; auto|]. exists b0, a0. repeat split; auto. unfold orient in *. lia. }
  clear a0 b0 Ia0 Ib0 Ho Ea0 Eb0. destruct G as (a & b & Ia & Ib & Ho & Ea & Eb).
  set (dx := px a - px p + (px b - px p)). set (dy := py a - py p + (py b - py p)).
  set (lin := fun e : point * point => (px (snd e) - px (fst e)) * dy - (py (snd e) - py (fst e)) * dx).
  destruct (multiplier lin (flat_map tedges (s :: T))) as (K & HK & BK).
  set (q := Loc (K * px p + dx) (K * py p + dy) K).
  assert (OL : forall e, oloc (fst e) (snd e) q = K * orient (fst e) (snd e) p + lin e) by (intros e; unfold oloc, orient, lin, q; cbn [lx ly lm]; ring).
  assert (OP : forall e, In e (flat_map tedges (s :: T)) -> 0 < orient (fst e) (snd e) p -> 0 < oloc (fst e) (snd e) q) by (intros e Ie He; rewrite OL; specialize (BK e Ie); nia).
  assert (ON : forall e, In e (flat_map tedges (s :: T)) -> 0 <= oloc (fst e) (snd e) q -> 0 <= orient (fst e) (snd e) p) by (intros e Ie He; rewrite OL in He; specialize (BK e Ie); nia).
  assert (E3 : forall t, In t (s :: T) -> In (ta t, tb t) (flat_map tedges (s :: T)) /\ In (tb t, tc t) (flat_map tedges (s :: T)) /\ In (tc t, ta t) (flat_map tedges (s :: T))).
  { intros t It. repeat split; apply in_flat_map; exists t; (split; [exact It|]); unfold tedges; cbn [In]; auto. }
  assert (IS : inside q s).
  { destruct (E3 s (or_introl eq_refl)) as (e1 & e2 & e3). unfold inner, inside in IP. rewrite !oloc_at in IP. destruct IP as (i1 & i2 & i3).
    repeat split; [apply (OP _ e1 i1)|apply (OP _ e2 i2)|apply (OP _ e3 i3)]. }
  destruct (tiling_covers s T q (dt_tiling _ _ _ DT) ltac:(cbn; lia) IS) as (t & It & _ & Wt).
  exists t. split; [exact It|]. pose proof (t_pos _ _ (dt_tiling _ _ _ DT)) as PT. rewrite Forall_forall in PT. specialize (PT t It). unfold pos in PT.
  assert (V : In p (verts t)).
  { destruct (E3 t (or_intror It)) as (e1 & e2 & e3). unfold within in Wt. destruct Wt as (w1 & w2 & w3).
    pose proof (ON _ e1 w1) as o1. pose proof (ON _ e2 w2) as o2. pose proof (ON _ e3 w3) as o3. cbn [fst snd] in o1, o2, o3.
    destruct (closed_in_circle _ _ _ p PT o1 o2 o3) as [C1 C2]. pose proof (dt_empty _ _ _ DT t p It Ip) as C3. unfold tinc in C3.
    destruct C2 as [-> | [-> | ->]]; [lia|cbn; auto..]. }
  split; [exact V|]. intros X' Y' M' C. pose proof (centred_far _ _ _ _ _ _ _ DT It C) as F'. destruct C as (HM' & Eb' & Ec').
  apply (same_circle X Y M X' Y' M' p a b (ta t) (tb t) (tc t) q); auto.
  - intros z Iz. apply F. eapply (dt_verts _ _ _ DT t); [exact It|exact Iz].
  - intros z [<-|[<-|[<-|[]]]]; auto.
  - unfold inside. cbn [ta tb tc]. 
    assert (O1 : oloc p a q = orient p a b) by (unfold oloc, orient, q, dx, dy; cbn [lx ly lm]; ring).
    assert (O2 : oloc a b q = (K - 2) * orient p a b) by (unfold oloc, orient, q, dx, dy; cbn [lx ly lm]; ring).
    assert (O3 : oloc b p q = orient p a b) by (unfold oloc, orient, q, dx, dy; cbn [lx ly lm]; ring).
    rewrite O1, O2, O3. repeat split; try assumption. apply Z.mul_pos_pos; lia.
Qed.
