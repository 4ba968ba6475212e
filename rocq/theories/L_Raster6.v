(** Proofs for the rasterisers, part 6: watertightness (C20). *)
From Coq Require Import ZArith Reals List Bool Lia Lra Permutation Psatz.
From Flocq Require Import Core IEEE754.BinarySingleNaN.
From Verif Require Import GoNum FloatLemmas M_Norm M_Geom S_Geom M_Raster S_Raster L_Raster1 L_Raster2 L_Raster3 L_Raster4 L_Raster5.
Import ListNotations.
Open Scope Z_scope.

Lemma point_eqb_eq a b : point_eqb a b = true <-> a = b.
Proof.
  unfold point_eqb. rewrite andb_true_iff, !Z.eqb_eq. split; [intros [H1 H2]; apply point_ext; assumption|intros ->; auto].
Qed.
Lemma edge_eqb_eq e f : edge_eqb e f = true <-> e = f.
Proof.
  unfold edge_eqb. rewrite andb_true_iff, !point_eqb_eq. destruct e, f. cbn. split; [intros [-> ->]; reflexivity|intros E; injection E; auto].
Qed.
Lemma edge_eqb_refl e : edge_eqb e e = true. Proof. now apply edge_eqb_eq. Qed.
Lemma edge_eqb_neq e f : e <> f -> edge_eqb e f = false.
Proof. intros H. destruct (edge_eqb e f) eqn:E; [|reflexivity]. apply edge_eqb_eq in E. contradiction. Qed.

Definition swap_edge (e : point * point) := (snd e, fst e).

Section Chain.
  Variable s : point * point -> Z.
  Hypothesis anti : forall a b, s (b, a) = - s (a, b).
  Definition ssum (l : list (point * point)) : Z := sumZ (map s l).
  Lemma ssum_app l l' : ssum (l ++ l') = ssum l + ssum l'.
  Proof. unfold ssum. induction l as [|e l IH]; [reflexivity|]. cbn [app map sumZ]. lia. Qed.
  Lemma ssum_cons e l : ssum (e :: l) = s e + ssum l. Proof. reflexivity. Qed.
  Lemma ssum_swap l : ssum (map swap_edge l) = - ssum l.
  Proof. unfold ssum. induction l as [|[a b] l IH]; [reflexivity|]. cbn [map sumZ]. unfold swap_edge at 1. cbn [fst snd]. rewrite (anti a b). lia. Qed.

  Lemma count_pos_in e l : 0 < count (edge_eqb e) l -> In e l.
  Proof.
    induction l as [|f l IH]; [cbn; lia|]. rewrite count_cons. intros H. destruct (edge_eqb e f) eqn:E.
    - apply edge_eqb_eq in E. left. auto.
    - right. apply IH. cbn [b2z] in H. lia.
  Qed.

  Lemma chain_zero n : forall l, (length l <= n)%nat ->
    (forall a b, count (edge_eqb (a, b)) l = count (edge_eqb (b, a)) l) -> ssum l = 0.
  Proof.
    induction n as [|n IH]; intros l Hl H.
    - destruct l; [reflexivity|cbn in Hl; lia].
    - destruct l as [|[a b] l]; [reflexivity|]. cbn [length] in Hl.
      destruct (point_eqb a b) eqn:E.
      + apply point_eqb_eq in E. subst b. rewrite ssum_cons. rewrite (IH l); [|lia|].
        * specialize (anti a a). lia.
        * intros c d. specialize (H c d). rewrite !count_cons in H. unfold edge_eqb at 1 3 in H. cbn [fst snd] in H.
          rewrite (andb_comm (point_eqb d a)) in H. lia.
      + assert (N : a <> b) by (intros ->; rewrite (proj2 (point_eqb_eq b b) eq_refl) in E; discriminate).
        assert (I : In (b, a) l).
        { apply count_pos_in. specialize (H a b). rewrite !count_cons in H. rewrite edge_eqb_refl in H.
          rewrite (edge_eqb_neq (b, a) (a, b)) in H by congruence. cbn [b2z] in H. pose proof (count_nonneg (edge_eqb (a, b)) l). lia. }
        apply in_split in I. destruct I as (l1 & l2 & ->).
        rewrite ssum_cons, ssum_app, ssum_cons, (anti a b).
        assert (Z0 : ssum (l1 ++ l2) = 0).
        { apply IH; [rewrite app_length in *; cbn [length] in Hl; lia|]. intros c d. specialize (H c d).
          rewrite !count_cons, !count_app, !count_cons in H. rewrite !count_app.
          assert (Q : forall c d, edge_eqb (c, d) (b, a) = edge_eqb (d, c) (a, b)).
          { intros. unfold edge_eqb. cbn [fst snd]. apply andb_comm. }
          rewrite !Q in H. lia. }
        rewrite ssum_app in Z0. lia.
  Qed.

  Lemma count_swap a b l : count (edge_eqb (a, b)) (map swap_edge l) = count (edge_eqb (b, a)) l.
  Proof.
    induction l as [|[c d] l IH]; [reflexivity|]. cbn [map]. rewrite !count_cons, IH. unfold edge_eqb, swap_edge. cbn [fst snd].
    rewrite andb_comm. reflexivity.
  Qed.

  Lemma chain_eq l l' :
    (forall a b, count (edge_eqb (a, b)) l - count (edge_eqb (b, a)) l = count (edge_eqb (a, b)) l' - count (edge_eqb (b, a)) l') ->
    ssum l = ssum l'.
  Proof.
    intros H. assert (Z0 : ssum (l ++ map swap_edge l') = 0).
    { apply (chain_zero _ _ (le_n _)). intros a b. rewrite !count_app, !count_swap. specialize (H a b). lia. }
    rewrite ssum_app, ssum_swap in Z0. lia.
  Qed.
End Chain.

Lemma coverage_cons t F x y : coverage (t :: F) x y = cov1 t x y + coverage F x y.
Proof. unfold coverage, cov1. cbn [flat_map]. apply count_app. Qed.

Definition ccw_family (F : list tri) : Prop := Forall (fun t => in_box 15 t /\ 0 < tarea t) F.

Lemma coverage_sum F x y : ccw_family F -> coverage F x y = ssum (sig x y) (flat_map tedges F).
Proof.
  induction 1 as [|t F [HB HA] _ IH]; [reflexivity|]. rewrite coverage_cons. cbn [flat_map]. rewrite ssum_app, <- IH.
  rewrite (cov1_cyc t x y HB) by lia. rewrite Z.sgn_pos by exact HA. unfold cyc, ssum, tedges. cbn [map sumZ]. lia.
Qed.

Lemma watertight F F' : ccw_family F -> ccw_family F' -> (forall a b, net F a b = net F' a b) ->
  forall x y, coverage F x y = coverage F' x y.
Proof.
  intros H H' E x y. rewrite !coverage_sum by assumption. apply chain_eq; [apply sig_antisym|exact E].
Qed.

Lemma coverage_single t x y : 0 <= coverage [t] x y <= 1.
Proof.
  rewrite coverage_cons. change (coverage [] x y) with 0. rewrite Z.add_0_r, cov1_lines.
  destruct (dda_lines_shape t) as (L & R & ->). rewrite cov_rows. unfold b2z. destruct (_ && _); lia.
Qed.

Lemma cov1_In t x y : In (x, y) (dda_pixels t) <-> cov1 t x y = 1.
Proof.
  pose proof (coverage_single t x y) as B. rewrite coverage_cons in B. change (coverage [] x y) with 0 in B. unfold cov1 in *.
  assert (G : forall l, In (x, y) l <-> 0 < count (pixel_eqb (x, y)) l).
  { induction l as [|[a b] l IH]; [cbn; lia|]. rewrite count_cons. cbn [In]. rewrite IH. unfold pixel_eqb at 2. cbn [fst snd].
    pose proof (count_nonneg (pixel_eqb (x, y)) l) as N.
    split.
    - intros [Q|Q]; [injection Q as -> ->; rewrite !Z.eqb_refl; cbn [andb b2z]; lia|unfold b2z; destruct (_ && _); lia].
    - destruct (Z.eqb_spec x a) as [->|]; [destruct (Z.eqb_spec y b) as [->|]|]; cbn [andb b2z]; intros; auto; right; lia. }
  rewrite G. lia.
Qed.

(** Two triangles on opposite sides of a common edge. *)
Lemma slope_between a b c d y : (py a <= y)%Z -> (py b <= y)%Z -> pbox 15 b -> pbox 15 c -> pbox 15 d ->
  py a < py b -> y < py c -> y < py d -> 0 < area2 a b c -> 0 < area2 b a d -> Ex b c y <= Ex b d y.
Proof.
  intros Ha Hb Bb Bc Bd Hab Hc Hd A1 A2.
  destruct (Z.eq_dec y (py b)) as [->|N].
  { unfold pbox in *. rewrite !(Ex_R 15) by (unfold pbox; lia). unfold evR. rewrite Z.sub_diag, !linR_0. reflexivity. }
  apply edge_sep; auto; try lia.
  assert (P1 : (0 < IZR (py c - py b))%R) by (apply IZR_lt; lia). assert (P2 : (0 < IZR (py d - py b))%R) by (apply IZR_lt; lia).
  assert (D : (px c - px b) * (py d - py b) < (px d - px b) * (py c - py b)).
  { unfold area2 in *. set (u := px b - px a) in *. set (v := py b - py a) in *.
    assert (E1 : u * (py c - py b) - (px c - px b) * v > 0) by (unfold u, v; lia).
    assert (E2 : (px d - px b) * v - u * (py d - py b) > 0) by (unfold u, v in *; lia).
    assert (0 < v) by (unfold v; lia). clearbody u v. set (cx := px c - px b) in *. set (cy := py c - py b) in *.
    set (dx := px d - px b) in *. set (dy := py d - py b) in *.
    assert (0 < cy) by (unfold cy; lia). assert (0 < dy) by (unfold dy; lia). clearbody cx cy dx dy.
    assert (v * (cx * dy) < v * (dx * cy)); nia. }
  apply IZR_lt in D. rewrite !mult_IZR in D. unfold exact.
  assert (P3 : (0 < IZR (y - py b))%R) by (apply IZR_lt; lia).
  apply Rplus_lt_compat_l. unfold Rdiv.
  apply Rmult_lt_reg_r with (IZR (py c - py b) * IZR (py d - py b))%R; [nra|].
  replace (IZR (px c - px b) * IZR (y - py b) * / IZR (py c - py b) * (IZR (py c - py b) * IZR (py d - py b)))%R
    with (IZR (px c - px b) * IZR (py d - py b) * IZR (y - py b))%R by (field; lra).
  replace (IZR (px d - px b) * IZR (y - py b) * / IZR (py d - py b) * (IZR (py c - py b) * IZR (py d - py b)))%R
    with (IZR (px d - px b) * IZR (py c - py b) * IZR (y - py b))%R by (field; lra).
  apply Rmult_lt_compat_r; [exact P3|exact D].
Qed.

Lemma slope_between_up a b c d y : (py c <= y)%Z -> (py d <= y)%Z -> pbox 15 a -> pbox 15 c -> pbox 15 d ->
  py a < py b -> y < py a -> 0 < area2 a b c -> 0 < area2 b a d -> Ex c a y <= Ex d a y.
Proof.
  intros Hc Hd Ba Bc Bd Hab Hy A1 A2.
  apply edge_sep; auto; try lia.
  assert (P1 : (0 < IZR (py a - py c))%R) by (apply IZR_lt; lia). assert (P2 : (0 < IZR (py a - py d))%R) by (apply IZR_lt; lia).
  assert (D : (px c - px a) * (py a - py d) < (px d - px a) * (py a - py c)).
  { unfold area2 in *. set (u := px b - px a) in *. set (v := py b - py a) in *.
    assert (E1 : - u * (py a - py c) - (px c - px a) * v > 0) by (unfold u, v; lia).
    assert (E2 : (px d - px a) * v + u * (py a - py d) > 0) by (unfold u, v in *; lia).
    assert (0 < v) by (unfold v; lia). clearbody u v. set (cx := px c - px a) in *. set (cy := py a - py c) in *.
    set (dx := px d - px a) in *. set (dy := py a - py d) in *.
    assert (0 < cy) by (unfold cy; lia). assert (0 < dy) by (unfold dy; lia). clearbody cx cy dx dy.
    assert (v * (cx * dy) < v * (dx * cy)); nia. }
  apply IZR_lt in D. rewrite !mult_IZR in D.
  assert (E : forall p, py p < py a -> exact p a y = (IZR (px a) + IZR (px p - px a) * IZR (py a - y) / IZR (py a - py p))%R).
  { intros p Hp. unfold exact. apply IZR_lt in Hp. rewrite !minus_IZR. field. lra. }
  rewrite !E by lia.
  assert (P3 : (0 < IZR (py a - y))%R) by (apply IZR_lt; lia).
  apply Rplus_lt_compat_l. unfold Rdiv.
  apply Rmult_lt_reg_r with (IZR (py a - py c) * IZR (py a - py d))%R; [nra|].
  replace (IZR (px c - px a) * IZR (py a - y) * / IZR (py a - py c) * (IZR (py a - py c) * IZR (py a - py d)))%R
    with (IZR (px c - px a) * IZR (py a - py d) * IZR (py a - y))%R by (field; lra).
  replace (IZR (px d - px a) * IZR (py a - y) * / IZR (py a - py d) * (IZR (py a - py c) * IZR (py a - py d)))%R
    with (IZR (px d - px a) * IZR (py a - py c) * IZR (py a - y))%R by (field; lra).
  apply Rmult_lt_compat_r; [exact P3|exact D].
Qed.

Lemma adjacent_aux a b c d x y : pbox 15 a -> pbox 15 b -> pbox 15 c -> pbox 15 d -> py a < py b ->
  0 < area2 a b c -> 0 < area2 b a d -> cyc x y a b c = 1 -> cyc x y b a d = 1 -> False.
Proof.
  intros Ba Bb Bc Bd Hab A1 A2 C1 C2. unfold cyc in *. rewrite (sig_antisym x y a b) in C2.
  unfold sig in C1, C2. destruct (Z.ltb_spec (py a) (py b)); [|lia]. unfold b2z in *.
  pose proof (slope_between a b c d y) as G1. pose proof (slope_between_up a b c d y) as G2.
  set (E1 := Ex a b y) in *. set (E2 := Ex b c y) in *. set (E3 := Ex c b y) in *. set (E4 := Ex c a y) in *. set (E5 := Ex a c y) in *.
  set (E6 := Ex a d y) in *. set (E7 := Ex d a y) in *. set (E8 := Ex d b y) in *. set (E9 := Ex b d y) in *.
  assert (G1' : py b <= y -> y < py c -> y < py d -> E2 <= E9) by (intros; apply G1; auto; lia).
  assert (G2' : py c <= y -> py d <= y -> y < py a -> E4 <= E7) by (intros; apply G2; auto; lia).
  clear G1 G2. clearbody E1 E2 E3 E4 E5 E6 E7 E8 E9. clear Ba Bb Bc Bd A1 A2.
  destruct (Z.ltb_spec x E1), (Z.leb_spec (py a) y), (Z.ltb_spec y (py a)), (Z.leb_spec (py b) y), (Z.ltb_spec y (py b)); try lia;
  cbn [andb] in *;
  destruct (Z.leb_spec (py c) y), (Z.ltb_spec y (py c)); try lia; destruct (Z.leb_spec (py d) y), (Z.ltb_spec y (py d)); try lia;
  rewrite ?andb_false_r in *; cbn [andb] in *;
  destruct (Z.ltb_spec (py b) (py c)), (Z.ltb_spec (py c) (py b)), (Z.ltb_spec (py c) (py a)), (Z.ltb_spec (py a) (py c)); try lia;
  destruct (Z.ltb_spec (py a) (py d)), (Z.ltb_spec (py d) (py a)), (Z.ltb_spec (py d) (py b)), (Z.ltb_spec (py b) (py d)); try lia;
  repeat match goal with H : context [if ?u <? ?v then _ else _] |- _ => destruct (Z.ltb_spec u v) end; lia.
Qed.

Lemma adjacent a b c d : let t1 := Tri a b c in let t2 := Tri b a d in
  in_box 15 t1 -> in_box 15 t2 -> 0 < tarea t1 -> 0 < tarea t2 ->
  forall p, ~ (In p (dda_pixels t1) /\ In p (dda_pixels t2)).
Proof.
  intros t1 t2 B1 B2 A1 A2 [x y] [I1 I2]. apply cov1_In in I1, I2.
  rewrite cov1_cyc, Z.sgn_pos in I1 by (auto; lia). rewrite cov1_cyc, Z.sgn_pos in I2 by (auto; lia). unfold t1, t2 in *. cbn [ta tb tc] in *.
  rewrite Z.mul_1_l in *. unfold tarea in *. cbn [ta tb tc] in *.
  assert (Ba : pbox 15 a) by (apply B1; cbn; auto). assert (Bb : pbox 15 b) by (apply B1; cbn; auto).
  assert (Bc : pbox 15 c) by (apply B1; cbn; auto). assert (Bd : pbox 15 d) by (apply B2; cbn; auto).
  destruct (Z.lt_total (py a) (py b)) as [L|[L|L]].
  - exact (adjacent_aux a b c d x y Ba Bb Bc Bd L A1 A2 I1 I2).
  - (* horizontal common edge: the triangles lie in different rows *)
    unfold cyc, sig in I1, I2. rewrite L in *. rewrite Z.ltb_irrefl in *. unfold area2 in *. rewrite L in *. unfold b2z in *.
    rewrite Z.sub_diag in *.
    destruct (Z.lt_total (py b) (py c)) as [Lc|[Lc|Lc]]; [| nia |];
    destruct (Z.lt_total (py b) (py d)) as [Ld|[Ld|Ld]]; try nia;
    destruct (Z.ltb_spec (py b) (py c)), (Z.ltb_spec (py c) (py b)); try lia; destruct (Z.ltb_spec (py b) (py d)), (Z.ltb_spec (py d) (py b)); try lia;
    destruct (Z.leb_spec (py b) y), (Z.ltb_spec y (py b)); try lia; cbn [andb] in *; rewrite ?andb_false_r in *; cbn [andb] in *; lia.
  - exact (adjacent_aux b a d c x y Bb Ba Bd Bc L A2 A1 I2 I1).
Qed.
