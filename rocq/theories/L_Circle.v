(** The determinant [incirc] decides the position relative to the circumcircle. *)
From Coq Require Import ZArith List Bool Lia Psatz.
From Verif Require Import GoNum M_Geom S_Geom M_Raster S_Raster M_Delaunay S_Delaunay L_Super L_Plane L_BW L_Toggle.
Import ListNotations.
Open Scope Z_scope.

Lemma circle_identity a b c p X Y M : sdist2 X Y M b = sdist2 X Y M a -> sdist2 X Y M c = sdist2 X Y M a ->
  M * M * incirc a b c p = (sdist2 X Y M a - sdist2 X Y M p) * orient a b c.
Proof.
  intros Hb Hc.
  assert (I : M * M * incirc a b c p =
    (sdist2 X Y M a - sdist2 X Y M p) * ((px b - px p) * (py c - py p) - (px c - px p) * (py b - py p)) +
    (sdist2 X Y M b - sdist2 X Y M p) * ((px c - px p) * (py a - py p) - (px a - px p) * (py c - py p)) +
    (sdist2 X Y M c - sdist2 X Y M p) * ((px a - px p) * (py b - py p) - (px b - px p) * (py a - py p))).
  { unfold incirc, sdist2. ring. }
  rewrite I, Hb, Hc. unfold orient. ring.
Qed.

Lemma centre_exists a b c : orient a b c <> 0 -> exists X Y M, 0 < M /\ sdist2 X Y M b = sdist2 X Y M a /\ sdist2 X Y M c = sdist2 X Y M a.
Proof.
  intros H.
  set (bx := px b - px a). set (by_ := py b - py a). set (cx := px c - px a). set (cy := py c - py a).
  set (B := bx * bx + by_ * by_). set (C := cx * cx + cy * cy). set (o := orient a b c).
  assert (G : forall s, s * s = 1 -> 
    let X := s * (2 * o * px a + (cy * B - by_ * C)) in let Y := s * (2 * o * py a + (bx * C - cx * B)) in let M := s * (2 * o) in
    sdist2 X Y M b = sdist2 X Y M a /\ sdist2 X Y M c = sdist2 X Y M a).
  { intros s Hs X Y M. unfold sdist2, X, Y, M.
    set (u := cy * B - by_ * C). set (v := bx * C - cx * B).
    assert (E : forall x y, (s * (2 * o * px a + u) - s * (2 * o) * x) * (s * (2 * o * px a + u) - s * (2 * o) * x) +
       (s * (2 * o * py a + v) - s * (2 * o) * y) * (s * (2 * o * py a + v) - s * (2 * o) * y) =
       (s * s) * ((u - 2 * o * (x - px a)) * (u - 2 * o * (x - px a)) + (v - 2 * o * (y - py a)) * (v - 2 * o * (y - py a)))) by (intros; ring).
    rewrite !E, Hs, !Z.mul_1_l. unfold u, v, B, C, o, orient, bx, by_, cx, cy. split; ring. }
  destruct (Z_lt_ge_dec 0 o) as [Q|Q].
  - destruct (G 1 eq_refl) as [G1 G2]. eexists _, _, _. split; [|split; [exact G1|exact G2]]. lia.
  - destruct (G (-1) eq_refl) as [G1 G2]. eexists _, _, _. split; [|split; [exact G1|exact G2]]. unfold o in *. lia.
Qed.

Lemma circle_strict a b c p : 0 < orient a b c -> (in_circumcircle a b c p <-> 0 < incirc a b c p).
Proof.
  intros H. split.
  - intros (X & Y & M & HM & Hb & Hc & Hp). pose proof (circle_identity a b c p X Y M Hb Hc) as E.
    assert (0 < (sdist2 X Y M a - sdist2 X Y M p) * orient a b c) by (apply Z.mul_pos_pos; lia). nia.
  - intros Q. destruct (centre_exists a b c ltac:(lia)) as (X & Y & M & HM & Hb & Hc). exists X, Y, M. repeat (split; [assumption|]).
    pose proof (circle_identity a b c p X Y M Hb Hc) as E. assert (0 < M * M * incirc a b c p) by (apply Z.mul_pos_pos; nia). nia.
Qed.
Lemma circle_closed a b c p : 0 < orient a b c -> (in_closed_circumcircle a b c p <-> 0 <= incirc a b c p).
Proof.
  intros H. split.
  - intros (X & Y & M & HM & Hb & Hc & Hp). pose proof (circle_identity a b c p X Y M Hb Hc) as E.
    assert (0 <= (sdist2 X Y M a - sdist2 X Y M p) * orient a b c) by (apply Z.mul_nonneg_nonneg; lia). nia.
  - intros Q. destruct (centre_exists a b c ltac:(lia)) as (X & Y & M & HM & Hb & Hc). exists X, Y, M. repeat (split; [assumption|]).
    pose proof (circle_identity a b c p X Y M Hb Hc) as E. assert (0 <= M * M * incirc a b c p) by (apply Z.mul_nonneg_nonneg; nia). nia.
Qed.
Lemma in_circumcircle_swap a b c p : in_circumcircle a b c p <-> in_circumcircle b a c p.
Proof. split; intros (X & Y & M & HM & Hb & Hc & Hp); exists X, Y, M; rewrite ?Hb, ?Hc in *; repeat split; auto; lia. Qed.
Lemma in_closed_swap a b c p : in_closed_circumcircle a b c p <-> in_closed_circumcircle b a c p.
Proof. split; intros (X & Y & M & HM & Hb & Hc & Hp); exists X, Y, M; rewrite ?Hb, ?Hc in *; repeat split; auto; lia. Qed.

Lemma ccw_circle t p : pos (ccw t) -> (in_circumcircle (d_a t) (d_b t) (d_c t) p <-> 0 < tinc (ccw t) p).
Proof.
  unfold ccw, tinc, pos. destruct (_ <? 0); cbn [ta tb tc]; intros H; [rewrite in_circumcircle_swap|]; apply circle_strict, H.
Qed.
Lemma ccw_closed t p : pos (ccw t) -> (in_closed_circumcircle (d_a t) (d_b t) (d_c t) p <-> 0 <= tinc (ccw t) p).
Proof.
  unfold ccw, tinc, pos. destruct (_ <? 0); cbn [ta tb tc]; intros H; [rewrite in_closed_swap|]; apply circle_closed, H.
Qed.
