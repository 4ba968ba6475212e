(** How many pixels a triangle can have: not more than twice its area (C61). *)
From Coq Require Import ZArith Reals List Bool Lia Lra Permutation Psatz.
From Flocq Require Import Core IEEE754.BinarySingleNaN.
From Verif Require Import GoNum FloatLemmas M_Norm M_Geom S_Geom M_Raster S_Raster L_Raster1 L_Raster2 L_Raster3 L_Raster4 L_Raster5 L_Raster6.
Import ListNotations.
Open Scope Z_scope.

(** * Lattice points of a triangle *)
Definition closed_in (a b c q : point) : Prop := 0 <= area2 a b q /\ 0 <= area2 b c q /\ 0 <= area2 c a q.

Lemma split_area a b c p : area2 a b p + area2 b c p + area2 c a p = area2 a b c.
Proof. unfold area2. ring. Qed.
Lemma area_flip a b c : area2 a b c = - area2 b a c.
Proof. unfold area2. ring. Qed.
Lemma area_cyc a b c : area2 a b c = area2 b c a.
Proof. unfold area2. ring. Qed.
Lemma bary a b c p q : area2 b c p * area2 p a q + area2 c a p * area2 p b q + area2 a b p * area2 p c q = 0.
Proof. unfold area2. ring. Qed.
Lemma on_edge a b p q : area2 a b p = 0 -> area2 a b q = area2 p b q - area2 p a q.
Proof. unfold area2. lia. Qed.
Lemma at_corner a b c p : area2 a b c <> 0 -> area2 a b p = 0 -> area2 b c p = 0 -> p = b.
Proof.
  intros N H1 H2. assert (X : area2 a b c * (px p - px b) = area2 b c p * (px a - px b) + area2 a b p * (px c - px b)) by (unfold area2; ring).
  assert (Y : area2 a b c * (py p - py b) = area2 b c p * (py a - py b) + area2 a b p * (py c - py b)) by (unfold area2; ring).
  rewrite H1, H2 in X, Y. rewrite !Z.mul_0_l in X, Y. cbn in X, Y. apply Z.mul_eq_0 in X, Y. destruct p as [x1 y1], b as [x2 y2]. cbn [px py] in *. f_equal; lia.
Qed.

(** Which part of the triangle split at [p] holds [q]. *)
Lemma in_part a b c p q : 0 < area2 a b c -> closed_in a b c p -> closed_in a b c q -> p <> a -> p <> b -> p <> c ->
  (0 < area2 a b p /\ closed_in a b p q) \/ (0 < area2 b c p /\ closed_in b c p q) \/ (0 < area2 c a p /\ closed_in c a p q).
Proof.
  intros A (P1 & P2 & P3) (Q1 & Q2 & Q3) Na Nb Nc.
  pose proof (bary a b c p q) as B. unfold closed_in.
  rewrite (area_flip b p), (area_flip c p), (area_flip a p).
  pose proof (on_edge a b p q) as O1. pose proof (on_edge b c p q) as O2. pose proof (on_edge c a p q) as O3.
  assert (Z1 : area2 a b p = 0 -> area2 b c p = 0 -> False) by (intros; apply Nb, (at_corner a b c p); lia).
  assert (Z2 : area2 b c p = 0 -> area2 c a p = 0 -> False) by (intros; apply Nc, (at_corner b c a p); rewrite ?(area_cyc b c a), ?(area_cyc c a b); lia).
  assert (Z3 : area2 c a p = 0 -> area2 a b p = 0 -> False) by (intros; apply Na, (at_corner c a b p); rewrite ?(area_cyc c a b); lia).
  set (A1 := area2 a b p) in *. set (A2 := area2 b c p) in *. set (A3 := area2 c a p) in *.
  set (sa := area2 p a q) in *. set (sb := area2 p b q) in *. set (sc := area2 p c q) in *.
  set (q1 := area2 a b q) in *. set (q2 := area2 b c q) in *. set (q3 := area2 c a q) in *. clearbody A1 A2 A3 sa sb sc q1 q2 q3.
  destruct (Z.eq_dec A1 0) as [E1|E1]; [|destruct (Z.eq_dec A2 0) as [E2|E2]; [|destruct (Z.eq_dec A3 0) as [E3|E3]]].
  - specialize (O1 E1). assert (sa <= 0 <= sb) by nia. destruct (Z_le_gt_dec sc 0); [right; left|right; right]; lia.
  - specialize (O2 E2). assert (sb <= 0 <= sc) by nia. destruct (Z_le_gt_dec sa 0); [right; right|left]; lia.
  - specialize (O3 E3). assert (sc <= 0 <= sa) by nia. destruct (Z_le_gt_dec sb 0); [left|right; left]; lia.
  - assert (0 < A1) by lia. assert (0 < A2) by lia. assert (0 < A3) by lia.
    assert (~ (0 < sa /\ 0 < sb /\ 0 < sc)) by (intros (? & ? & ?); pose proof (Z.mul_pos_pos A2 sa); pose proof (Z.mul_pos_pos A3 sb); pose proof (Z.mul_pos_pos A1 sc); lia).
    assert (~ (sa < 0 /\ sb < 0 /\ sc < 0)) by (intros (? & ? & ?); pose proof (Z.mul_pos_neg A2 sa); pose proof (Z.mul_pos_neg A3 sb); pose proof (Z.mul_pos_neg A1 sc); lia).
    clear B O1 O2 O3 Z1 Z2 Z3. lia.
Qed.

Lemma filter_split {A} (f : A -> bool) l : length l = (length (filter f l) + length (filter (fun x => negb (f x)) l))%nat.
Proof. induction l as [|x l IH]; [reflexivity|]. cbn [filter]. destruct (f x); cbn [negb length]; lia. Qed.

Definition closed_inb (a b c q : point) : bool := (0 <? area2 a b c) && (0 <=? area2 a b q) && (0 <=? area2 b c q) && (0 <=? area2 c a q).
Lemma closed_inb_iff a b c q : closed_inb a b c q = true <-> 0 < area2 a b c /\ closed_in a b c q.
Proof. unfold closed_inb, closed_in. rewrite !andb_true_iff, !Z.leb_le, Z.ltb_lt. tauto. Qed.

Lemma lattice_bound : forall n a b c S, (length S <= n)%nat -> NoDup S -> 0 < area2 a b c ->
  (forall q, In q S -> closed_in a b c q /\ q <> a /\ q <> b /\ q <> c) -> Z.of_nat (length S) + 1 <= area2 a b c.
Proof.
  induction n as [|n IH]; intros a b c S L ND A H.
  - destruct S; cbn [length] in *; lia.
  - destruct S as [|p S]; [cbn [length]; lia|]. cbn [length] in L. inversion ND as [|? ? Np ND']; subst.
    destruct (H p (or_introl eq_refl)) as (Hp & Na & Nb & Nc).
    pose (S1 := filter (closed_inb a b p) S). pose (R1 := filter (fun x => negb (closed_inb a b p x)) S).
    pose (S2 := filter (closed_inb b c p) R1). pose (S3 := filter (fun x => negb (closed_inb b c p x)) R1).
    assert (L1 : length S = (length S1 + length R1)%nat) by apply filter_split.
    assert (L2 : length R1 = (length S2 + length S3)%nat) by apply filter_split.
    assert (I1 : forall q, In q R1 -> In q S) by (intros q Hq; apply filter_In in Hq; tauto).
    assert (N1 : NoDup R1) by (apply NoDup_filter; exact ND').
    assert (OK : forall q, In q S -> q <> p /\ q <> a /\ q <> b /\ q <> c /\ closed_in a b c q).
    { intros q Hq. destruct (H q (or_intror Hq)) as (? & ? & ? & ?). repeat split; try tauto; try apply H0. intros ->. exact (Np Hq). }
    assert (T1 : forall q, In q S1 -> In q S /\ 0 < area2 a b p /\ closed_in a b p q).
    { intros q Hq. apply filter_In in Hq as [Hq E]. apply closed_inb_iff in E. tauto. }
    assert (T2 : forall q, In q S2 -> In q S /\ 0 < area2 b c p /\ closed_in b c p q).
    { intros q Hq. apply filter_In in Hq as [Hq E]. apply closed_inb_iff in E. split; [apply I1, Hq|exact E]. }
    assert (T3 : forall q, In q S3 -> In q S /\ 0 < area2 c a p /\ closed_in c a p q).
    { intros q Hq. apply filter_In in Hq as [Hq E2]. apply filter_In in Hq as [Hq E1]. split; [exact Hq|].
      destruct (OK q Hq) as (_ & _ & _ & _ & Cq). apply negb_true_iff in E1, E2.
      destruct (in_part a b c p q A Hp Cq Na Nb Nc) as [Q|[Q|Q]]; [apply closed_inb_iff in Q; congruence|apply closed_inb_iff in Q; congruence|exact Q]. }
    assert (G : forall u v T, (forall q, In q T -> In q S /\ 0 < area2 u v p /\ closed_in u v p q) -> NoDup T -> (length T <= n)%nat ->
      In u [a; b; c] -> In v [a; b; c] -> 0 <= area2 u v p -> (area2 u v p = 0 /\ length T = 0%nat) \/ Z.of_nat (length T) + 1 <= area2 u v p).
    { intros u v T HT NT LT Hu Hv Pos. destruct (Z.eq_dec (area2 u v p) 0) as [Z0|Z0].
      - left. split; [exact Z0|]. destruct T as [|q T]; [reflexivity|]. destruct (HT q (or_introl eq_refl)) as (_ & ? & _). lia.
      - right. apply IH; auto; [lia|]. intros q Hq. destruct (HT q Hq) as (Iq & _ & Cq). destruct (OK q Iq) as (? & ? & ? & ? & _).
        split; [exact Cq|]. cbn [In] in Hu, Hv. destruct Hu as [<-|[<-|[<-|[]]]], Hv as [<-|[<-|[<-|[]]]]; tauto. }
    destruct Hp as (P1 & P2 & P3).
    destruct (G a b S1 T1 (NoDup_filter _ ND') ltac:(lia) ltac:(cbn; tauto) ltac:(cbn; tauto) P1) as [[Z1 G1]|G1];
    destruct (G b c S2 T2 (NoDup_filter _ N1) ltac:(lia) ltac:(cbn; tauto) ltac:(cbn; tauto) P2) as [[Z2 G2]|G2];
    destruct (G c a S3 T3 (NoDup_filter _ N1) ltac:(lia) ltac:(cbn; tauto) ltac:(cbn; tauto) P3) as [[Z3 G3]|G3];
    pose proof (split_area a b c p); cbn [length]; try lia.
    + exfalso. apply Nb, (at_corner a b c p); lia.
    + exfalso. apply Na, (at_corner c a b p); rewrite ?(area_cyc c a b); lia.
    + exfalso. apply Nc, (at_corner b c a p); rewrite ?(area_cyc b c a), ?(area_cyc c a b); lia.
Qed.

(** * Rounded edges *)
Lemma edge_right a b y X : pbox 15 a -> pbox 15 b -> py a < py b -> py a <= y <= py b -> Ex a b y <= X - 1 ->
  (px b - px a) * (y - py a) <= (X - px a) * (py b - py a).
Proof.
  intros Ba Bb Hab Hy H. rewrite (Ex_R 15) in H by (auto; lia).
  assert (V : (evR a b y < IZR X)%R).
  { apply Rnot_le_lt. intros G. apply Ztrunc_le in G. rewrite Ztrunc_IZR in G. lia. }
  pose proof (edge_err 15 a b y ltac:(lia) Ba Bb Hab Hy) as E. apply Rabs_le_inv in E. change (15 - 49) with (-34) in E.
  apply Z.nlt_ge. intros N. apply (Zlt_le_succ _ _) in N. apply IZR_le in N. rewrite succ_IZR, !mult_IZR in N.
  assert (D : (1 <= IZR (py b - py a) <= 65536)%R) by (unfold pbox in *; split; apply IZR_le; lia).
  assert (Q : (IZR X + / 65536 <= exact a b y)%R).
  { unfold exact. rewrite (minus_IZR X) in N. apply Rmult_le_reg_r with (IZR (py b - py a)); [lra|].
    replace ((IZR (px a) + IZR (px b - px a) * IZR (y - py a) / IZR (py b - py a)) * IZR (py b - py a))%R with (IZR (px a) * IZR (py b - py a) + IZR (px b - px a) * IZR (y - py a))%R by (field; lra).
    nra. }
  assert (bpow radix2 (-34) < / 65536)%R by (replace (/ 65536)%R with (bpow radix2 (-16)) by (cbn; lra); apply bpow_lt; lia). lra.
Qed.
Lemma edge_left a b y X : pbox 15 a -> pbox 15 b -> py a < py b -> py a <= y <= py b -> 1 <= X -> X <= Ex a b y ->
  (X - px a) * (py b - py a) <= (px b - px a) * (y - py a).
Proof.
  intros Ba Bb Hab Hy H1 H. rewrite (Ex_R 15) in H by (auto; lia).
  assert (V : (IZR X <= evR a b y)%R).
  { apply Rnot_lt_le. intros G. destruct (Rle_or_lt 0 (evR a b y)) as [P|P].
    - rewrite Ztrunc_floor in H by exact P. apply IZR_le in H. pose proof (Zfloor_lb (evR a b y)). lra.
    - assert (Ztrunc (evR a b y) <= Ztrunc 0) by (apply Ztrunc_le; lra). change 0%R with (IZR 0) in H0. rewrite Ztrunc_IZR in H0. lia. }
  pose proof (edge_err 15 a b y ltac:(lia) Ba Bb Hab Hy) as E. apply Rabs_le_inv in E. change (15 - 49) with (-34) in E.
  apply Z.nlt_ge. intros N. apply (Zlt_le_succ _ _) in N. apply IZR_le in N. rewrite succ_IZR, !mult_IZR in N.
  assert (D : (1 <= IZR (py b - py a) <= 65536)%R) by (unfold pbox in *; split; apply IZR_le; lia).
  assert (Q : (exact a b y + / 65536 <= IZR X)%R).
  { unfold exact. rewrite (minus_IZR X) in N. apply Rmult_le_reg_r with (IZR (py b - py a)); [lra|].
    replace ((IZR (px a) + IZR (px b - px a) * IZR (y - py a) / IZR (py b - py a) + / 65536) * IZR (py b - py a))%R with (IZR (px a) * IZR (py b - py a) + IZR (px b - px a) * IZR (y - py a) + IZR (py b - py a) / 65536)%R by (field; lra).
    nra. }
  assert (bpow radix2 (-34) < / 65536)%R by (replace (/ 65536)%R with (bpow radix2 (-16)) by (cbn; lra); apply bpow_lt; lia). lra.
Qed.
(** At its upper end an edge is not rounded. *)
Lemma edge_top a b : pbox 15 a -> pbox 15 b -> py a < py b -> Ex a b (py a) = px a.
Proof.
  intros Ba Bb H. rewrite (Ex_R 15) by (auto; lia). unfold evR. rewrite Z.sub_diag, linR_0. unfold pbox in *. rewrite of_Z_val by lia. apply Ztrunc_IZR.
Qed.

(** * Pixels and lattice points *)
Lemma third D u v w d1 d0 e : D = u + v + w -> 0 < D -> 0 < d1 <= d0 -> u * d1 + v * d0 = D * e -> e <= d1 -> 0 <= v -> 0 <= w.
Proof.
  intros E HD Hd R He Hv. assert (K : w * d1 = D * (d1 - e) + v * (d0 - d1)) by (rewrite E in *; lia).
  assert (0 <= D * (d1 - e)) by (apply Z.mul_nonneg_nonneg; lia). assert (0 <= v * (d0 - d1)) by (apply Z.mul_nonneg_nonneg; lia).
  apply Z.nlt_ge. intros N. pose proof (Z.mul_neg_pos w d1 N ltac:(lia)). lia.
Qed.
Lemma pixel_row t x y : In (x, y) (dda_pixels t) -> exists l r, In (Line l r y) (dda_lines t) /\ l <= x < r.
Proof.
  unfold dda_pixels. intros H. apply in_flat_map in H as (e & He & H). destruct e as [l r y'|]; [|destruct H]. unfold line_pixels in H.
  apply in_map_iff in H as (x' & Q & Hx). injection Q as -> ->. apply zfor_In in Hx. exists l, r. auto.
Qed.
Lemma pixel_point t p0 p1 p2 x y : in_box 15 t -> 0 <= xmin t -> sort_vertices t = (p0, p1, p2) -> In (x, y) (dda_pixels t) -> let q := Pt (x + 1) y in
  (0 < rdet p0 p1 p2 -> closed_in p2 p1 p0 q /\ q <> p0 /\ q <> p2) /\ (rdet p0 p1 p2 < 0 -> closed_in p2 p0 p1 q /\ q <> p0 /\ q <> p1).
Proof.
  intros HB X0 E HI q. destruct (sort_vertices_spec _ _ _ _ E) as [S P].
  destruct (in_box_sorted _ _ _ _ _ (in_box_mono 15 24 t ltac:(lia) HB) E) as (B0 & B1 & B2).
  destruct (in_box_sorted _ _ _ _ _ HB E) as (C0 & C1 & C2).
  destruct (pixel_row t x y HI) as (l & r & I & Hx).
  destruct (lines_rows p0 p1 p2 B0 B1 B2 S) as (fl & F & F1 & F2).
  unfold dda_lines in I. rewrite E in I. change (In (Line l r y) (lines_of p0 p1 p2)) in I.
  rewrite Forall_forall in F. specialize (F _ I). cbn in F. destruct F as [Hy F].
  destruct (edge_in_box t p0 p1 p2 y (in_box_mono 15 24 t ltac:(lia) HB) E Hy) as [M1 M2].
  assert (Nq0 : q <> p0) by (intros Q; subst p0; cbn [py q] in Hy; lia).
  assert (D0 : area2 p2 p1 p0 = rdet p0 p1 p2) by (unfold area2, rdet; ring).
  assert (SA : area2 p0 p2 q + area2 p2 p1 q + area2 p1 p0 q = rdet p0 p1 p2) by (rewrite <- D0; unfold area2; ring).
  assert (SY1 : area2 p0 p2 q * (py p1 - py p2) + area2 p2 p1 q * (py p0 - py p2) = rdet p0 p1 p2 * (y - py p2)) by (unfold area2, rdet, q; cbn [px py]; ring).
  assert (SY2 : area2 p0 p2 q * (py p0 - py p1) + area2 p1 p0 q * (py p0 - py p2) = rdet p0 p1 p2 * (py p0 - y)) by (unfold area2, rdet, q; cbn [px py]; ring).
  split; intros HD.
  - rewrite (F1 C0 C1 C2 HD) in F. destruct F as [-> ->]. split; [|split; [exact Nq0|]].
    2:{ intros Q. subst p2. unfold long_e in Hx. cbn [py q] in *. pose proof (edge_top q p0 C2 C0 ltac:(cbn [py q]; lia)) as T. cbn [px py q] in T. fold q in T. rewrite T in Hx. lia. }
    assert (A1 : 0 <= area2 p0 p2 q).
    { pose proof (edge_right p2 p0 y (x + 1) C2 C0 ltac:(lia) ltac:(lia) ltac:(unfold long_e in *; lia)). unfold area2, q. cbn [px py]. lia. }
    unfold closed_in. unfold short_e in *. destruct (Z.ltb_spec y (py p1)) as [L|L].
    + assert (A2 : 0 <= area2 p2 p1 q).
      { pose proof (edge_left p2 p1 y (x + 1) C2 C1 ltac:(lia) ltac:(lia) ltac:(unfold long_e in *; lia) ltac:(lia)). unfold area2, q. cbn [px py]. lia. }
      split; [exact A2|]. split; [|exact A1].
      exact (third (rdet p0 p1 p2) (area2 p0 p2 q) (area2 p2 p1 q) (area2 p1 p0 q) (py p1 - py p2) (py p0 - py p2) (y - py p2) ltac:(lia) HD ltac:(lia) SY1 ltac:(lia) A2).
    + assert (A2 : 0 <= area2 p1 p0 q).
      { pose proof (edge_left p1 p0 y (x + 1) C1 C0 ltac:(lia) ltac:(lia) ltac:(unfold long_e in *; lia) ltac:(lia)). unfold area2, q. cbn [px py]. lia. }
      split; [|split; [exact A2|exact A1]].
      exact (third (rdet p0 p1 p2) (area2 p0 p2 q) (area2 p1 p0 q) (area2 p2 p1 q) (py p0 - py p1) (py p0 - py p2) (py p0 - y) ltac:(lia) HD ltac:(lia) SY2 ltac:(lia) A2).
  - rewrite (F2 C0 C1 C2 HD) in F. destruct F as [-> ->]. split; [|split; [exact Nq0|]].
    2:{ intros Q. subst p1. unfold short_e in Hx. cbn [py q] in *. rewrite Z.ltb_irrefl in Hx. pose proof (edge_top q p0 C1 C0 ltac:(cbn [py q]; lia)) as T. cbn [px py q] in T. fold q in T. rewrite T in Hx. lia. }
    assert (A1 : 0 <= area2 p2 p0 q).
    { pose proof (edge_left p2 p0 y (x + 1) C2 C0 ltac:(lia) ltac:(lia) ltac:(lia) ltac:(unfold long_e in *; lia)). unfold area2, q. cbn [px py]. lia. }
    unfold closed_in. rewrite (area_flip p0 p1), (area_flip p1 p2). rewrite (area_flip p2 p0) in A1.
    unfold short_e in *. destruct (Z.ltb_spec y (py p1)) as [L|L].
    + assert (A2 : area2 p2 p1 q <= 0).
      { pose proof (edge_right p2 p1 y (x + 1) C2 C1 ltac:(lia) ltac:(lia) ltac:(lia)). unfold area2, q. cbn [px py]. lia. }
      rewrite (area_flip p2 p0). split; [exact A1|]. split; [|lia].
      exact (third (- rdet p0 p1 p2) (- area2 p0 p2 q) (- area2 p2 p1 q) (- area2 p1 p0 q) (py p1 - py p2) (py p0 - py p2) (y - py p2) ltac:(lia) ltac:(lia) ltac:(lia) ltac:(lia) ltac:(lia) ltac:(lia)).
    + assert (A2 : area2 p1 p0 q <= 0).
      { pose proof (edge_right p1 p0 y (x + 1) C1 C0 ltac:(lia) ltac:(lia) ltac:(lia)). unfold area2, q. cbn [px py]. lia. }
      rewrite (area_flip p2 p0). split; [exact A1|]. split; [lia|].
      exact (third (- rdet p0 p1 p2) (- area2 p0 p2 q) (- area2 p1 p0 q) (- area2 p2 p1 q) (py p0 - py p1) (py p0 - py p2) (py p0 - y) ltac:(lia) ltac:(lia) ltac:(lia) ltac:(lia) ltac:(lia) ltac:(lia)).
Qed.

Lemma remove_one {A} (f : A -> bool) l : (forall x y, In x l -> In y l -> f x = false -> f y = false -> x = y) -> NoDup l -> (length l <= S (length (filter f l)))%nat.
Proof.
  induction l as [|x l IH]; intros H N; [cbn; lia|]. inversion N as [|? ? N1 N2]; subst. cbn [filter length]. destruct (f x) eqn:F.
  - cbn [length]. assert (length l <= S (length (filter f l)))%nat; [|lia]. apply IH; [|exact N2]. intros u v Hu Hv. apply H; now right.
  - replace (filter f l) with l; [lia|]. symmetry. assert (K : forall u, In u l -> f u = true).
    { intros u Hu. destruct (f u) eqn:G; [reflexivity|]. exfalso. apply N1. rewrite (H x u (or_introl eq_refl) (or_intror Hu) F G). exact Hu. }
    clear - K. induction l as [|u l IH]; [reflexivity|]. cbn [filter]. rewrite (K u (or_introl eq_refl)). f_equal. apply IH. intros v Hv. apply K. now right.
Qed.

(** A triangle has at most as many pixels as twice its area. *)
Theorem pixel_count t : in_box 15 t -> 0 <= xmin t -> tarea t <> 0 -> Z.of_nat (length (dda_pixels t)) <= Z.abs (tarea t).
Proof.
  intros HB X0 HA. destruct (sort_vertices t) as [[p0 p1] p2] eqn:E. rewrite (tarea_rdet _ _ _ _ E). pose proof (tarea_rdet _ _ _ _ E) as DA.
  pose (S := map (fun p => Pt (fst p + 1) (snd p)) (dda_pixels t)).
  assert (LS : length (dda_pixels t) = length S) by (unfold S; rewrite map_length; reflexivity).
  assert (NS : NoDup S).
  { unfold S. apply FinFun.Injective_map_NoDup; [|apply dda_pixels_NoDup]. intros [u v] [u' v'] Q. cbn [fst snd] in Q. injection Q as Q1 Q2. f_equal; lia. }
  assert (G : forall a b c v, Z.abs (rdet p0 p1 p2) = area2 a b c -> 0 < area2 a b c -> In v [a; b; c] ->
    (forall q, In q S -> closed_in a b c q /\ (forall z, In z [a; b; c] -> z <> v -> q <> z)) -> Z.of_nat (length S) <= Z.abs (rdet p0 p1 p2)).
  { intros a b c v -> Pos Hv HS. pose proof (remove_one (fun q => negb (point_eqb q v)) S) as K.
    assert (L : Z.of_nat (length (filter (fun q => negb (point_eqb q v)) S)) + 1 <= area2 a b c).
    { apply (lattice_bound (length (filter (fun q => negb (point_eqb q v)) S))); auto; [apply NoDup_filter, NS|].
      intros q Hq. apply filter_In in Hq as [Hq Nv]. destruct (HS q Hq) as [Cq Nz]. split; [exact Cq|].
      assert (Nqv : q <> v) by (intros Q; apply point_eqb_eq in Q; rewrite Q in Nv; discriminate).
      assert (T : forall z, In z [a; b; c] -> q <> z) by (intros z Hz Q; subst z; apply (Nz q); auto).
      repeat split; apply T; cbn; auto. }
    specialize (K ltac:(intros u w _ _ Fu Fw; apply negb_false_iff, point_eqb_eq in Fu, Fw; congruence) NS). lia. }
  rewrite LS. destruct (Z.lt_total 0 (rdet p0 p1 p2)) as [L|[L|L]]; [| lia |].
  - apply (G p2 p1 p0 p1); [unfold area2, rdet in *; lia|unfold area2, rdet in *; lia|cbn; auto|].
    intros q Hq. apply in_map_iff in Hq as ([x y] & <- & I). cbn [fst snd]. destruct (proj1 (pixel_point t p0 p1 p2 x y HB X0 E I) L) as (C & N0 & N2).
    split; [exact C|]. intros z [<-|[<-|[<-|[]]]] Nz; auto.
  - apply (G p2 p0 p1 p2); [unfold area2, rdet in *; lia|unfold area2, rdet in *; lia|cbn; auto|].
    intros q Hq. apply in_map_iff in Hq as ([x y] & <- & I). cbn [fst snd]. destruct (proj2 (pixel_point t p0 p1 p2 x y HB X0 E I) L) as (C & N0 & N2).
    split; [exact C|]. intros z [<-|[<-|[<-|[]]]] Nz; auto.
Qed.
