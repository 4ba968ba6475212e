(** Triangles of a tiling that lie in the image have together at most the area of the image.
    The locations (i + u, j + v) of the image, for a suitable u and v and their negatives,
    count twice the area of a triangle exactly. *)
From Coq Require Import ZArith List Bool Lia Psatz Permutation.
From Verif Require Import M_Geom S_Geom S_Image M_Raster S_Raster L_Raster1 L_Raster6 S_Delaunay L_Plane.
Import ListNotations.
Open Scope Z_scope.

Lemma sum_to_ext n f g : (forall k, 0 <= k < Z.of_nat n -> f k = g k) -> sum_to n f = sum_to n g.
Proof. induction n as [|n IH]; intros H; [reflexivity|]. cbn [sum_to]. rewrite IH by (intros; apply H; lia). rewrite H by lia. reflexivity. Qed.
Lemma sum_to_plus n f g : sum_to n (fun k => f k + g k) = sum_to n f + sum_to n g.
Proof. induction n as [|n IH]; [reflexivity|]. cbn [sum_to]. lia. Qed.
Lemma sum_to_opp n f : sum_to n (fun k => - f k) = - sum_to n f.
Proof. induction n as [|n IH]; [reflexivity|]. cbn [sum_to]. lia. Qed.
Lemma sum_to_const n c : sum_to n (fun _ => c) = c * Z.of_nat n.
Proof. induction n as [|n IH]; [cbn; lia|]. cbn [sum_to]. lia. Qed.
Lemma sum_to_le n f g : (forall k, 0 <= k < Z.of_nat n -> f k <= g k) -> sum_to n f <= sum_to n g.
Proof. induction n as [|n IH]; intros H; [cbn; lia|]. cbn [sum_to]. pose proof (H (Z.of_nat n) ltac:(lia)). specialize (IH ltac:(intros; apply H; lia)). lia. Qed.
Lemma sum_to_first n f : sum_to (S n) f = f 0 + sum_to n (fun k => f (k + 1)).
Proof.
  induction n as [|n IH]; [cbn; lia|]. change (sum_to (S (S n)) f) with (sum_to (S n) f + f (Z.of_nat (S n))). rewrite IH. cbn [sum_to].
  replace (Z.of_nat (S n)) with (Z.of_nat n + 1) by lia. lia.
Qed.
Lemma sum_to_rev n f : sum_to n f = sum_to n (fun k => f (Z.of_nat n - 1 - k)).
Proof.
  induction n as [|n IH]; [reflexivity|]. rewrite (sum_to_first n (fun k => f (Z.of_nat (S n) - 1 - k))). cbn [sum_to]. rewrite IH.
  replace (Z.of_nat (S n) - 1 - 0) with (Z.of_nat n) by lia. rewrite Z.add_comm. f_equal. apply sum_to_ext. intros k Hk. f_equal. lia.
Qed.
(** Restriction to an interval. *)
Lemma sum_to_interval lo k f : 0 <= lo -> forall n, lo + Z.of_nat k <= Z.of_nat n ->
  sum_to n (fun j => if (lo <=? j) && (j <? lo + Z.of_nat k) then f j else 0) = sum_to k (fun i => f (lo + i)).
Proof.
  intros Hlo. induction n as [|n IH]; intros Hn.
  - destruct k; [reflexivity|lia].
  - cbn [sum_to]. destruct (Z.eq_dec (lo + Z.of_nat k) (Z.of_nat (S n))) as [E|E].
    + destruct k as [|k].
      * cbn [sum_to]. rewrite (sum_to_ext n _ (fun _ => 0)); [rewrite sum_to_const|]; [destruct (Z.leb_spec lo (Z.of_nat n)), (Z.ltb_spec (Z.of_nat n) (lo + Z.of_nat 0)); cbn [andb]; lia|].
        intros j Hj. destruct (Z.leb_spec lo j), (Z.ltb_spec j (lo + Z.of_nat 0)); cbn [andb]; lia.
      * cbn [sum_to]. clear IH. assert (G : sum_to n (fun j => if (lo <=? j) && (j <? lo + Z.of_nat (S k)) then f j else 0) = sum_to k (fun i => f (lo + i))).
        { assert (En : Z.of_nat n = lo + Z.of_nat k) by lia. clear E Hn.
          revert n En. induction k as [|k IH]; intros n En.
          - cbn [sum_to]. rewrite (sum_to_ext n _ (fun _ => 0)); [rewrite sum_to_const; lia|].
            intros j Hj. destruct (Z.leb_spec lo j); cbn [andb]; [lia|reflexivity].
          - destruct n as [|n]; [lia|]. cbn [sum_to]. rewrite <- (IH n) by lia. f_equal.
            + apply sum_to_ext. intros j Hj. destruct (Z.leb_spec lo j), (Z.ltb_spec j (lo + Z.of_nat (S (S k)))), (Z.ltb_spec j (lo + Z.of_nat (S k))); cbn [andb]; try reflexivity; lia.
            + destruct (Z.leb_spec lo (Z.of_nat n)), (Z.ltb_spec (Z.of_nat n) (lo + Z.of_nat (S (S k)))); cbn [andb]; try lia. f_equal. lia. }
        rewrite G. f_equal. destruct (Z.leb_spec lo (Z.of_nat n)), (Z.ltb_spec (Z.of_nat n) (lo + Z.of_nat (S k))); cbn [andb]; try lia. f_equal. lia.
    + rewrite <- IH by lia. destruct (Z.leb_spec lo (Z.of_nat n)), (Z.ltb_spec (Z.of_nat n) (lo + Z.of_nat k)); cbn [andb]; lia.
Qed.
(** How many i below n have D*i < V. *)
Lemma count_below D V n : 0 < D -> - D <= V < D * Z.of_nat n -> V mod D <> 0 -> sum_to n (fun i => b2z (D * i <? V)) = V / D + 1.
Proof.
  intros HD HV N. pose proof (Z.div_mod V D ltac:(lia)) as E. pose proof (Z.mod_pos_bound V D HD) as B. set (q := V / D) in *. set (r := V mod D) in *. clearbody q r.
  assert (Q : -1 <= q < Z.of_nat n) by nia.
  rewrite (sum_to_ext n _ (fun i => if (0 <=? i) && (i <? 0 + Z.of_nat (Z.to_nat (q + 1))) then 1 else 0)).
  - rewrite (sum_to_interval 0 (Z.to_nat (q + 1)) (fun _ => 1)) by lia. rewrite sum_to_const. lia.
  - intros i Hi. rewrite Z2Nat.id by lia. destruct (Z.leb_spec 0 i); [|lia]. cbn [andb]. unfold b2z. destruct (Z.ltb_spec (D * i) V), (Z.ltb_spec i (0 + (q + 1))); try reflexivity; nia.
Qed.

Section Grid.
Context (w h : nat) (M ox oy : Z) (HM : 0 < M) (Hx : 0 < ox < M) (Hy : 0 < oy < M).
(** No edge of the image passes through a location. *)
Context (generic : forall dx dy, Z.abs dx <= Z.of_nat w -> 0 < dy <= Z.of_nat h -> (dx * oy - ox * dy) mod M <> 0).

Definition gsum (u v : Z) (f : loc -> Z) : Z := sum_to h (fun j => sum_to w (fun i => f (Loc (M * i + u) (M * j + v) M))).
Definition both (f : loc -> Z) : Z := gsum ox oy f + gsum (M - ox) (M - oy) f.
Lemma both_plus f g : both (fun q => f q + g q) = both f + both g.
Proof.
  unfold both, gsum. assert (K : forall u v, sum_to h (fun j => sum_to w (fun i => f (Loc (M * i + u) (M * j + v) M) + g (Loc (M * i + u) (M * j + v) M))) =
    sum_to h (fun j => sum_to w (fun i => f (Loc (M * i + u) (M * j + v) M))) + sum_to h (fun j => sum_to w (fun i => g (Loc (M * i + u) (M * j + v) M)))).
  { intros u v. rewrite <- sum_to_plus. apply sum_to_ext. intros. apply sum_to_plus. }
  rewrite !K. lia.
Qed.
Lemma both_ext f g : (forall q, lm q = M -> f q = g q) -> both f = both g.
Proof. intros H. unfold both, gsum. f_equal; apply sum_to_ext; intros; apply sum_to_ext; intros; apply H; reflexivity. Qed.
Lemma both_le f g : (forall q, lm q = M -> f q <= g q) -> both f <= both g.
Proof. intros H. unfold both, gsum. apply Z.add_le_mono; apply sum_to_le; intros; apply sum_to_le; intros; apply H; reflexivity. Qed.
Lemma both_opp f : both (fun q => - f q) = - both f.
Proof.
  unfold both, gsum. assert (K : forall u v, sum_to h (fun j => sum_to w (fun i => - f (Loc (M * i + u) (M * j + v) M))) = - sum_to h (fun j => sum_to w (fun i => f (Loc (M * i + u) (M * j + v) M)))).
  { intros u v. rewrite <- sum_to_opp. apply sum_to_ext. intros. apply sum_to_opp. }
  rewrite !K. lia.
Qed.
Lemma both_1 : both (fun _ => 1) = 2 * (Z.of_nat w * Z.of_nat h).
Proof. unfold both, gsum. rewrite (sum_to_ext h _ (fun _ => Z.of_nat w)); [rewrite sum_to_const; lia|]. intros. rewrite sum_to_const. lia. Qed.

Definition in_frame (p : point) : Prop := 0 <= px p <= Z.of_nat w /\ 0 <= py p <= Z.of_nat h.

(** One upward edge. *)
Lemma row_count a b u v j : in_frame a -> in_frame b -> py a < py b -> 0 < u < M -> 0 < v < M ->
  let D := M * (py b - py a) in let V := (px b - px a) * (M * (j - py a) + v) - (py b - py a) * (u - M * px a) in
  V mod D <> 0 -> 0 <= j < Z.of_nat h ->
  sum_to w (fun i => chi (Loc (M * i + u) (M * j + v) M) (a, b)) = if (py a <=? j) && (j <? py b) then V / D + 1 else 0.
Proof.
  intros [Ax Ay] [Bx By] Hab Hu Hv D V N Hj.
  assert (U : forall i, chi (Loc (M * i + u) (M * j + v) M) (a, b) = if (py a <=? j) && (j <? py b) then b2z (D * i <? V) else 0).
  { intros i. unfold chi, up. cbn [fst snd lx ly lm].
    assert (C : forall y, (M * y <=? M * j + v) = (y <=? j)) by (intros y; destruct (Z.leb_spec (M * y) (M * j + v)), (Z.leb_spec y j); try reflexivity; nia).
    assert (C2 : forall y, (M * j + v <? M * y) = (j <? y)) by (intros y; destruct (Z.ltb_spec (M * j + v) (M * y)), (Z.ltb_spec j y); try reflexivity; nia).
    rewrite !C, !C2. assert (Z0 : (py b <=? j) && (j <? py a) = false) by (destruct (Z.leb_spec (py b) j), (Z.ltb_spec j (py a)); try reflexivity; lia).
    rewrite Z0. cbn [andb]. destruct ((py a <=? j) && (j <? py b)); cbn [andb]; [|reflexivity].
    assert (O : oloc a b (Loc (M * i + u) (M * j + v) M) = V - D * i) by (unfold oloc, V, D; cbn [lx ly lm]; ring).
    rewrite O. replace (0 <? V - D * i) with (D * i <? V) by (destruct (Z.ltb_spec (D * i) V), (Z.ltb_spec 0 (V - D * i)); try reflexivity; lia).
    change (b2z false) with 0. lia. }
  rewrite (sum_to_ext w _ _ (fun i _ => U i)). destruct (Z.leb_spec (py a) j) as [L1|L1], (Z.ltb_spec j (py b)) as [L2|L2]; cbn [andb]; try (rewrite sum_to_const; lia).
  apply count_below; [unfold D; nia| |exact N].
  (* the crossing lies in the image *)
  set (dy := py b - py a) in *. set (e := M * (j - py a) + v) in *. assert (Hdy : 0 < dy) by (unfold dy; lia).
  assert (He : 0 < e < M * dy) by (unfold e, dy; nia).
  assert (Conv : (px b - px a) * e + dy * M * px a = px b * e + px a * (M * dy - e)) by ring.
  assert (EV : V = px b * e + px a * (M * dy - e) - dy * u) by (rewrite <- Conv; unfold V; ring).
  assert (0 <= px b * e <= Z.of_nat w * e) by (split; [apply Z.mul_nonneg_nonneg; lia|apply Z.mul_le_mono_nonneg_r; lia]).
  assert (0 <= px a * (M * dy - e) <= Z.of_nat w * (M * dy - e)) by (split; [apply Z.mul_nonneg_nonneg; lia|apply Z.mul_le_mono_nonneg_r; lia]).
  assert (0 < dy * u < dy * M) by nia. unfold D. fold dy. rewrite EV. split; [lia|].
  replace (M * dy * Z.of_nat w) with (Z.of_nat w * e + Z.of_nat w * (M * dy - e)) by ring. lia.
Qed.

Lemma not_div V D : 0 < D -> V mod D <> 0 -> (- V) mod D <> 0 /\ (- V) / D = - (V / D) - 1.
Proof. intros HD N. split; [rewrite Z.mod_opp_l_nz by lia; pose proof (Z.mod_pos_bound V D HD); lia|apply Z.div_opp_l_nz; lia]. Qed.

Lemma edge_up a b : in_frame a -> in_frame b -> py a < py b -> both (fun q => chi q (a, b)) = (py b - py a) * (px a + px b).
Proof.
  intros Fa Fb Hab. set (D := M * (py b - py a)). assert (HD : 0 < D) by (unfold D; nia).
  pose (V := fun u v j => (px b - px a) * (M * (j - py a) + v) - (py b - py a) * (u - M * px a)).
  destruct Fa as [Ax Ay]. destruct Fb as [Bx By].
  assert (N1 : forall j, V ox oy j mod D <> 0).
  { intros j C. apply Z.mod_divide in C; [|lia]. destruct C as [z C]. apply (generic (px b - px a) (py b - py a)); [lia|lia|].
    apply Z.mod_divide; [lia|]. exists (z * (py b - py a) - (px b - px a) * (j - py a) - (py b - py a) * px a). unfold V, D in C.
    replace ((px b - px a) * oy - ox * (py b - py a)) with (((px b - px a) * (M * (j - py a) + oy) - (py b - py a) * (ox - M * px a)) - M * ((px b - px a) * (j - py a) + (py b - py a) * px a)) by ring.
    rewrite C. ring. }
  assert (RV : forall j, V (M - ox) (M - oy) (py a + py b - 1 - j) = - V ox oy j + (px a + px b - 1) * D) by (intros j; unfold V, D; ring).
  assert (N2 : forall j, V (M - ox) (M - oy) j mod D <> 0).
  { intros j. replace j with (py a + py b - 1 - (py a + py b - 1 - j)) by lia. rewrite RV, Z_mod_plus_full. apply not_div; [exact HD|apply N1]. }
  unfold both, gsum.
  rewrite (sum_to_ext h _ (fun j => if (py a <=? j) && (j <? py a + Z.of_nat (Z.to_nat (py b - py a))) then V ox oy j / D + 1 else 0)).
  2:{ intros j Hj. rewrite (row_count a b ox oy j (conj Ax Ay) (conj Bx By) Hab Hx Hy (N1 j) Hj). rewrite Z2Nat.id by lia. replace (py a + (py b - py a)) with (py b) by lia. reflexivity. }
  rewrite (sum_to_ext h (fun j => sum_to w (fun i => chi (Loc (M * i + (M - ox)) (M * j + (M - oy)) M) (a, b))) (fun j => if (py a <=? j) && (j <? py a + Z.of_nat (Z.to_nat (py b - py a))) then V (M - ox) (M - oy) j / D + 1 else 0)).
  2:{ intros j Hj. rewrite (row_count a b (M - ox) (M - oy) j (conj Ax Ay) (conj Bx By) Hab ltac:(lia) ltac:(lia) (N2 j) Hj). rewrite Z2Nat.id by lia. replace (py a + (py b - py a)) with (py b) by lia. reflexivity. }
  rewrite !sum_to_interval by lia. set (n := Z.to_nat (py b - py a)). assert (En : Z.of_nat n = py b - py a) by (unfold n; lia).
  rewrite (sum_to_rev n (fun i => V (M - ox) (M - oy) (py a + i) / D + 1)). rewrite <- sum_to_plus.
  rewrite (sum_to_ext n _ (fun _ => px a + px b)); [rewrite sum_to_const; lia|].
  intros k Hk. replace (py a + (Z.of_nat n - 1 - k)) with (py a + py b - 1 - (py a + k)) by lia. rewrite RV, Z_div_plus_full by lia.
  rewrite (proj2 (not_div _ _ HD (N1 (py a + k)))). lia.
Qed.
Lemma edge_both a b : in_frame a -> in_frame b -> both (fun q => chi q (a, b)) = (py b - py a) * (px a + px b).
Proof.
  intros Fa Fb. destruct (Z.lt_total (py a) (py b)) as [L|[L|L]].
  - apply edge_up; assumption.
  - rewrite L, Z.sub_diag, Z.mul_0_l. rewrite (both_ext _ (fun q => - 0)); [rewrite both_opp; unfold both, gsum; rewrite !(sum_to_ext h _ (fun _ => 0)); [rewrite sum_to_const; lia|intros; rewrite sum_to_const; lia..]|].
    intros q Hq. unfold chi, up. cbn [fst snd]. rewrite L. destruct (Z.leb_spec (lm q * py b) (ly q)), (Z.ltb_spec (ly q) (lm q * py b)); cbn [andb b2z]; lia.
  - rewrite (both_ext _ (fun q => - chi q (b, a))) by (intros; apply chi_anti). rewrite both_opp, edge_up by assumption. ring.
Qed.
Lemma tri_both t : in_frame (ta t) -> in_frame (tb t) -> in_frame (tc t) -> both (fun q => wind q t) = tarea t.
Proof.
  intros A B C. rewrite (both_ext _ (fun q => chi q (ta t, tb t) + (chi q (tb t, tc t) + chi q (tc t, ta t)))).
  - rewrite !both_plus, !edge_both by assumption. unfold tarea, area2. ring.
  - intros q _. unfold wind, ssum, tedges. cbn [map S_Geom.sumZ]. lia.
Qed.
Lemma tris_both T : Forall (fun t => in_frame (ta t) /\ in_frame (tb t) /\ in_frame (tc t)) T -> both (fun q => winds q T) = sumZ (map tarea T).
Proof.
  induction 1 as [|t T (A & B & C) _ IH].
  - unfold winds. cbn. unfold both, gsum. rewrite !(sum_to_ext h _ (fun _ => 0)); [rewrite sum_to_const; lia|intros; rewrite sum_to_const; lia..].
  - rewrite (both_ext _ (fun q => wind q t + winds q T)) by (intros; apply winds_cons). rewrite both_plus, tri_both, IH by assumption. reflexivity.
Qed.
End Grid.

Lemma winds_filter q f T : 0 < lm q -> Forall pos T -> winds q (filter f T) <= winds q T.
Proof.
  intros Hm. induction 1 as [|t T P _ IH]; [cbn; lia|]. cbn [filter]. rewrite winds_cons. pose proof (wind_01 q t Hm P). destruct (f t); rewrite ?winds_cons; lia.
Qed.
(** Those triangles of a tiling that lie in a w x h frame have at most its area. *)
Lemma frame_area s T f w h : tiling s T -> 0 <= w <= 32767 -> 0 <= h <= 32767 ->
  (forall t, In t T -> f t = true -> forall p, In p (verts t) -> 0 <= px p <= w /\ 0 <= py p <= h) -> sumZ (map tarea (filter f T)) <= 2 * (w * h).
Proof.
  intros H Hw Hh HF. set (M := 2 ^ 40). set (oy := 2 ^ 17).
  assert (Eg : forall dx dy, Z.abs dx <= Z.of_nat (Z.to_nat w) -> 0 < dy <= Z.of_nat (Z.to_nat h) -> (dx * oy - 1 * dy) mod M <> 0).
  { intros dx dy Dx Dy C. rewrite !Z2Nat.id in * by lia. apply Z.mod_divide in C; [|unfold M; lia]. destruct C as [z C]. unfold oy, M in C.
    change (2 ^ 17) with 131072 in C. change (2 ^ 40) with 1099511627776 in C. assert (z = 0) by lia. subst z. lia. }
  assert (FF : Forall (fun t => in_frame (Z.to_nat w) (Z.to_nat h) (ta t) /\ in_frame (Z.to_nat w) (Z.to_nat h) (tb t) /\ in_frame (Z.to_nat w) (Z.to_nat h) (tc t)) (filter f T)).
  { apply Forall_forall. intros t Ht. apply filter_In in Ht as [It Ft]. unfold in_frame. rewrite !Z2Nat.id by lia. repeat split; apply (HF t It Ft); cbn; auto. }
  rewrite <- (tris_both (Z.to_nat w) (Z.to_nat h) M 1 oy ltac:(unfold M; lia) ltac:(unfold M; lia) ltac:(unfold M, oy; lia) Eg _ FF).
  etransitivity; [apply (both_le _ _ _ _ _ _ (fun _ => 1))|rewrite both_1, !Z2Nat.id by lia; lia].
  intros q Hq. assert (Hm : 0 < lm q) by (rewrite Hq; unfold M; lia). etransitivity; [apply winds_filter; [exact Hm|apply H]|].
  rewrite (tiling_winds s T q H). apply (wind_01 q s Hm (t_spos _ _ H)).
Qed.
