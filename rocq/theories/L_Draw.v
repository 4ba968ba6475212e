(** Lemmas about drawn triangles (C72). *)
From Coq Require Import ZArith List Bool Lia.
From Verif Require Import M_Geom S_Delaunay L_Circle S_Draw.
Import ListNotations.
Open Scope Z_scope.

(** An affine function at a location, from its values at the corners of a triangle. *)
Lemma bary A B C X Y M a b c :
  orient a b c * (A * X + B * Y + C * M) =
  orient_at X Y M b c * (A * px a + B * py a + C) + orient_at X Y M c a * (A * px b + B * py b + C) + orient_at X Y M a b * (A * px c + B * py c + C).
Proof. unfold orient, orient_at. ring. Qed.
Lemma orient_sum X Y M a b c : M * orient a b c = orient_at X Y M a b + orient_at X Y M b c + orient_at X Y M c a.
Proof. unfold orient, orient_at. ring. Qed.

(** An affine function that vanishes at the corners of a triangle with area vanishes. *)
Lemma affine_zero A B C a b c p : orient a b c <> 0 -> A * px a + B * py a + C = 0 -> A * px b + B * py b + C = 0 -> A * px c + B * py c + C = 0 -> A * px p + B * py p + C = 0.
Proof.
  intros N Ha Hb Hc. assert (E : orient a b c * (A * px p + B * py p + C) = 0).
  { transitivity (orient a b c * (A * px p + B * py p + C * 1)); [ring|]. rewrite bary, Ha, Hb, Hc. ring. }
  apply Z.mul_eq_0 in E. tauto.
Qed.

Lemma mul_nonneg_cancel m x : 0 < m -> 0 <= m * x -> 0 <= x. Proof. nia. Qed.

Lemma mul_nonneg m x : 0 <= m -> 0 <= x -> 0 <= m * x. Proof. apply Z.mul_nonneg_nonneg. Qed.
Lemma circ_low m1 m2 x y : x = 0 -> 0 <= y -> m2 * m2 * x - m1 * m1 * y <= 0.
Proof. intros -> H. pose proof (mul_nonneg _ _ (Z.square_nonneg m1) H). lia. Qed.
Lemma circ_high m1 m2 x y : 0 <= x -> y = 0 -> 0 <= m2 * m2 * x - m1 * m1 * y.
Proof. intros H ->. pose proof (mul_nonneg _ _ (Z.square_nonneg m2) H). lia. Qed.
Lemma within_nonneg o M u v w x y z L : 0 < M -> o <> 0 -> M * o = u + v + w -> o * L = v * x + w * y + u * z ->
  (0 <= u /\ 0 <= v /\ 0 <= w) \/ (u <= 0 /\ v <= 0 /\ w <= 0) -> 0 <= x -> 0 <= y -> 0 <= z -> 0 <= L.
Proof.
  intros HM N S E W Hx Hy Hz. destruct W as [(A & B & C)|(A & B & C)].
  - assert (0 <= o) by (apply (mul_nonneg_cancel M); lia). apply (mul_nonneg_cancel o); [lia|]. rewrite E.
    pose proof (mul_nonneg v x). pose proof (mul_nonneg w y). pose proof (mul_nonneg u z). lia.
  - assert (0 <= - o) by (apply (mul_nonneg_cancel M); lia). apply (mul_nonneg_cancel (- o)); [lia|]. rewrite Z.mul_opp_l, E.
    pose proof (mul_nonneg (- v) x). pose proof (mul_nonneg (- w) y). pose proof (mul_nonneg (- u) z). lia.
Qed.
Lemma pos_zero u x : 0 < u -> 0 <= u * x -> x <= 0 -> x = 0.
Proof. intros Hu H Hx. pose proof (mul_nonneg_cancel u x Hu H). lia. Qed.
Lemma inside_zero o M u v w x y z L : 0 < M -> M * o = u + v + w -> o * L = v * x + w * y + u * z ->
  (0 < u /\ 0 < v /\ 0 < w) \/ (u < 0 /\ v < 0 /\ w < 0) -> 0 <= L -> x <= 0 -> y <= 0 -> z <= 0 -> o <> 0 /\ x = 0 /\ y = 0 /\ z = 0.
Proof.
  intros HM S E W HL Hx Hy Hz. destruct W as [(A & B & C)|(A & B & C)].
  - assert (0 <= o) by (apply (mul_nonneg_cancel M); lia). split; [intros ->; lia|]. pose proof (mul_nonneg o L).
    pose proof (mul_nonneg v (- x)). pose proof (mul_nonneg w (- y)). pose proof (mul_nonneg u (- z)).
    repeat split; [apply (pos_zero v)|apply (pos_zero w)|apply (pos_zero u)]; lia.
  - assert (0 <= - o) by (apply (mul_nonneg_cancel M); lia). split; [intros ->; lia|]. pose proof (mul_nonneg (- o) L).
    pose proof (mul_nonneg (- v) (- x)). pose proof (mul_nonneg (- w) (- y)). pose proof (mul_nonneg (- u) (- z)).
    repeat split; [apply (pos_zero (- v))|apply (pos_zero (- w))|apply (pos_zero (- u))]; lia.
Qed.

(** A location inside a b c and within d e f, where no corner of one is strictly inside
    the circle of the other: the circles are the same. *)
Lemma same_circle X Y M a b c d e f X1 Y1 M1 X2 Y2 M2 : 0 < M -> 0 < M1 -> 0 < M2 ->
  orient d e f <> 0 -> loc_inside X Y M a b c -> loc_within X Y M d e f ->
  sdist2 X1 Y1 M1 b = sdist2 X1 Y1 M1 a -> sdist2 X1 Y1 M1 c = sdist2 X1 Y1 M1 a ->
  sdist2 X2 Y2 M2 e = sdist2 X2 Y2 M2 d -> sdist2 X2 Y2 M2 f = sdist2 X2 Y2 M2 d ->
  (forall p, In p [d; e; f] -> sdist2 X1 Y1 M1 a <= sdist2 X1 Y1 M1 p) ->
  (forall p, In p [a; b; c] -> sdist2 X2 Y2 M2 d <= sdist2 X2 Y2 M2 p) ->
  forall p, In p [d; e; f] -> sdist2 X1 Y1 M1 p = sdist2 X1 Y1 M1 a.
Proof.
  intros HM H1 H2 N I W Eb Ec Ee Ef L1 L2.
  set (r1 := sdist2 X1 Y1 M1 a) in *. set (r2 := sdist2 X2 Y2 M2 d) in *.
  set (A := M2 * M2 * (- 2 * M1 * X1) - M1 * M1 * (- 2 * M2 * X2)).
  set (B := M2 * M2 * (- 2 * M1 * Y1) - M1 * M1 * (- 2 * M2 * Y2)).
  set (C := M2 * M2 * (X1 * X1 + Y1 * Y1 - r1) - M1 * M1 * (X2 * X2 + Y2 * Y2 - r2)).
  assert (LV : forall v, A * px v + B * py v + C = M2 * M2 * (sdist2 X1 Y1 M1 v - r1) - M1 * M1 * (sdist2 X2 Y2 M2 v - r2)).
  { intros v. unfold A, B, C, sdist2. ring. }
  clearbody A B C.
  assert (Ia : A * px a + B * py a + C <= 0) by (pose proof (L2 a ltac:(cbn; auto)); rewrite LV; fold r1; apply circ_low; lia).
  assert (Ib : A * px b + B * py b + C <= 0) by (pose proof (L2 b ltac:(cbn; auto)); rewrite LV; apply circ_low; lia).
  assert (Ic : A * px c + B * py c + C <= 0) by (pose proof (L2 c ltac:(cbn; auto)); rewrite LV; apply circ_low; lia).
  assert (Id : 0 <= A * px d + B * py d + C) by (pose proof (L1 d ltac:(cbn; auto)); rewrite LV; fold r2; apply circ_high; lia).
  assert (Ie : 0 <= A * px e + B * py e + C) by (pose proof (L1 e ltac:(cbn; auto)); rewrite LV; apply circ_high; lia).
  assert (If : 0 <= A * px f + B * py f + C) by (pose proof (L1 f ltac:(cbn; auto)); rewrite LV; apply circ_high; lia).
  assert (P : 0 <= A * X + B * Y + C * M).
  { apply (within_nonneg (orient d e f) M _ _ _ _ _ _ _ HM N (orient_sum X Y M d e f) (bary A B C X Y M d e f) W); assumption. }
  assert (Z0 : orient a b c <> 0 /\ A * px a + B * py a + C = 0 /\ A * px b + B * py b + C = 0 /\ A * px c + B * py c + C = 0).
  { apply (inside_zero (orient a b c) M _ _ _ _ _ _ _ HM (orient_sum X Y M a b c) (bary A B C X Y M a b c) I); assumption. }
  destruct Z0 as (NO & Za & Zb & Zc).
  intros p Ip. pose proof (affine_zero A B C a b c p NO Za Zb Zc) as Zp. rewrite LV in Zp.
  assert (R2 : sdist2 X2 Y2 M2 p = r2) by (destruct Ip as [<-|[<-|[<-|[]]]]; [reflexivity|exact Ee|exact Ef]).
  rewrite R2, Z.sub_diag, Z.mul_0_r, Z.sub_0_r in Zp. apply Z.mul_eq_0 in Zp. destruct Zp as [Zp|Zp]; [|lia]. apply Z.mul_eq_0 in Zp. lia.
Qed.

Lemma not_in_circle a b c p X Y M : ~ in_circumcircle a b c p -> 0 < M -> sdist2 X Y M b = sdist2 X Y M a -> sdist2 X Y M c = sdist2 X Y M a -> sdist2 X Y M a <= sdist2 X Y M p.
Proof. intros N HM Eb Ec. apply Z.nlt_ge. intros L. apply N. exists X, Y, M. auto. Qed.

Lemma orient_distinct a b c : orient a b c <> 0 -> a <> b /\ b <> c /\ a <> c.
Proof. intros N. repeat split; intros ->; apply N; unfold orient; ring. Qed.
(** Three different points among three points are all of them. *)
Lemma three_of_three (a b c d e f : point) : d <> e -> e <> f -> d <> f -> In d [a; b; c] -> In e [a; b; c] -> In f [a; b; c] -> same_corners a b c d e f.
Proof.
  intros N1 N2 N3 Id Ie If p. cbn in *. split; intros H; repeat match goal with H : _ \/ _ |- _ => destruct H end; subst; try contradiction; auto; congruence.
Qed.

(** The main lemma: such triangles have the same corners if no further corner is on the circle. *)
Lemma same_triangle X Y M a b c d e f : 0 < M -> orient a b c <> 0 -> orient d e f <> 0 -> loc_inside X Y M a b c -> loc_within X Y M d e f ->
  (forall p, In p [d; e; f] -> ~ in_circumcircle a b c p) -> (forall p, In p [a; b; c] -> ~ in_circumcircle d e f p) ->
  alone [d; e; f] a b c -> same_corners a b c d e f.
Proof.
  intros HM N1 N2 I W E1 E2 Al. destruct (centre_exists a b c N1) as (X1 & Y1 & M1 & H1 & Eb & Ec). destruct (centre_exists d e f N2) as (X2 & Y2 & M2 & H2 & Ee & Ef).
  assert (S : forall p, In p [d; e; f] -> sdist2 X1 Y1 M1 p = sdist2 X1 Y1 M1 a).
  { apply (same_circle X Y M a b c d e f X1 Y1 M1 X2 Y2 M2); auto.
    - intros p Ip. apply (not_in_circle a b c p X1 Y1 M1); auto.
    - intros p Ip. apply (not_in_circle d e f p X2 Y2 M2); auto. }
  assert (K : forall p, In p [d; e; f] -> In p [a; b; c]).
  { intros p Ip. apply (Al p Ip). exists X1, Y1, M1. rewrite (S p Ip). auto with zarith. }
  destruct (orient_distinct d e f N2) as (D1 & D2 & D3). apply three_of_three; auto; apply K; cbn; auto.
Qed.

(** The centroid. *)
Lemma centroid_inside a b c : orient a b c <> 0 -> loc_inside (px a + px b + px c) (py a + py b + py c) 3 a b c.
Proof.
  intros N. set (X := px a + px b + px c). set (Y := py a + py b + py c).
  assert (E1 : orient_at X Y 3 a b = orient a b c) by (unfold orient_at, orient, X, Y; ring).
  assert (E2 : orient_at X Y 3 b c = orient a b c) by (unfold orient_at, orient, X, Y; ring).
  assert (E3 : orient_at X Y 3 c a = orient a b c) by (unfold orient_at, orient, X, Y; ring).
  unfold loc_inside. rewrite E1, E2, E3. lia.
Qed.
