(** How far apart the scores of a wrong ear and of the best ear are. *)
From Coq Require Import ZArith List Bool Lia Psatz.
From Verif Require Import M_Geom S_Geom M_Raster S_Raster L_Raster1 L_Raster6 S_Delaunay L_Plane L_BW L_Ear.
Import ListNotations.
Local Open Scope Z_scope.

Lemma dot_le a b c d M : 0 <= M -> a * a + b * b <= M -> c * c + d * d <= M -> Z.abs (a * c + b * d) <= M.
Proof.
  intros HM A B. pose proof (Z.square_nonneg (a - c)). pose proof (Z.square_nonneg (b - d)). pose proof (Z.square_nonneg (a + c)). pose proof (Z.square_nonneg (b + d)).
  apply Z.abs_le. lia.
Qed.
Lemma dots_le ex ey a b c d M : 0 <= M -> a * a + b * b <= M -> c * c + d * d <= M -> (ex * a + ey * b) * (ex * c + ey * d) <= (ex * ex + ey * ey) * M.
Proof.
  intros HM A B. set (u := ex * a + ey * b). set (v := ex * c + ey * d).
  assert (U : u * u <= (ex * ex + ey * ey) * M).
  { assert (u * u = (ex * ex + ey * ey) * (a * a + b * b) - (ex * b - ey * a) * (ex * b - ey * a)) by (unfold u; ring). pose proof (Z.square_nonneg (ex * b - ey * a)).
    assert ((ex * ex + ey * ey) * (a * a + b * b) <= (ex * ex + ey * ey) * M) by (apply Z.mul_le_mono_nonneg_l; nia). lia. }
  assert (V : v * v <= (ex * ex + ey * ey) * M).
  { assert (v * v = (ex * ex + ey * ey) * (c * c + d * d) - (ex * d - ey * c) * (ex * d - ey * c)) by (unfold v; ring). pose proof (Z.square_nonneg (ex * d - ey * c)).
    assert ((ex * ex + ey * ey) * (c * c + d * d) <= (ex * ex + ey * ey) * M) by (apply Z.mul_le_mono_nonneg_l; nia). lia. }
  pose proof (Z.square_nonneg (u - v)). lia.
Qed.

Section Bound.
  Variables N ax ay bx by_ cx cy : Z.
  Let X := bx * cy - by_ * cx.
  Let Y := ax * by_ - ay * bx.
  Let W := cx * ay - cy * ax.
  Let I := (ax * ax + ay * ay) * X + (bx * bx + by_ * by_) * W + (cx * cx + cy * cy) * Y.
  Hypothesis NA : ax * ax + ay * ay <= N.
  Hypothesis NB : bx * bx + by_ * by_ <= N.
  Hypothesis NC : cx * cx + cy * cy <= N.
  Lemma N0 : 0 <= N. Proof. nia. Qed.
  Lemma bound_out T T' : 0 <= X -> 0 <= Y -> ax * ax + ay * ay - (ax * bx + ay * by_) <= T -> cx * cx + cy * cy - (cx * bx + cy * by_) <= T' -> 0 <= T -> 0 <= T' ->
    I <= (T + T') * Z.max X Y.
  Proof.
    intros HX HY HT HT' PT PT'. set (M := Z.max X Y).
    replace I with ((ax * ax + ay * ay - (ax * bx + ay * by_)) * X + (cx * cx + cy * cy - (cx * bx + cy * by_)) * Y) by (unfold I, X, Y, W; ring).
    assert ((ax * ax + ay * ay - (ax * bx + ay * by_)) * X <= T * M) by (apply Z.le_trans with (T * X); [apply Z.mul_le_mono_nonneg_r; lia|apply Z.mul_le_mono_nonneg_l; lia]).
    assert ((cx * cx + cy * cy - (cx * bx + cy * by_)) * Y <= T' * M) by (apply Z.le_trans with (T' * Y); [apply Z.mul_le_mono_nonneg_r; lia|apply Z.mul_le_mono_nonneg_l; lia]).
    lia.
  Qed.
  Lemma bound_in T0 : X < 0 -> 0 < Y -> 0 < X + Y + W -> cx * cx + cy * cy - (cx * bx + cy * by_) <= T0 -> I <= (2 * N + T0) * Y.
  Proof.
    intros HX HY HO HT0. pose proof N0 as N0. set (ex := ax - bx). set (ey := ay - by_). set (t := - (ex * ax + ey * ay)). 
    assert (EI : I = - X * t + (cx * cx + cy * cy - (cx * bx + cy * by_)) * Y) by (unfold I, t, ex, ey, X, Y, W; ring).
    assert (PC : (cx * cx + cy * cy - (cx * bx + cy * by_)) * Y <= T0 * Y) by (apply Z.mul_le_mono_nonneg_r; lia).
    assert (PT : - X * t <= 2 * N * Y); [|lia].
    destruct (Z_le_gt_dec t 0) as [T|T].
    { assert (0 <= - X * - t) by (apply Z.mul_nonneg_nonneg; lia). assert (0 <= 2 * N * Y) by (apply Z.mul_nonneg_nonneg; lia). lia. }
    set (E := ex * ex + ey * ey). set (s := cx * ey - cy * ex).
    assert (ID : E * - X = (ex * cx + ey * cy) * Y + s * (ex * bx + ey * by_)) by (unfold E, s, ex, ey, X, Y; ring).
    assert (SO : s = X + W) by (unfold s, ex, ey, X, W; ring).
    assert (EB : ex * bx + ey * by_ = - t - E) by (unfold t, E, ex, ey; ring).
    assert (E0 : 0 <= E) by (unfold E; apply Z.add_nonneg_nonneg; apply Z.square_nonneg).
    assert (EP : 0 < E). { destruct (Z.eq_dec E 0) as [Z0|]; [|lia]. exfalso. unfold E in Z0. pose proof (Z.square_nonneg ex). pose proof (Z.square_nonneg ey).
      assert (X0 : ex * ex = 0) by lia. assert (Y0 : ey * ey = 0) by lia. assert (X1 : ex = 0) by (apply Z.mul_eq_0 in X0; lia). assert (Y1 : ey = 0) by (apply Z.mul_eq_0 in Y0; lia). unfold t in T. rewrite X1, Y1 in T. lia. }
    pose proof (dots_le ex ey (- ax) (- ay) cx cy N N0 ltac:(lia) NC) as D3. replace (ex * - ax + ey * - ay) with t in D3 by (unfold t; ring). fold E in D3.
    pose proof (dots_le ex ey (- ax) (- ay) (- bx) (- by_) N N0 ltac:(lia) ltac:(lia)) as D4. replace (ex * - ax + ey * - ay) with t in D4 by (unfold t; ring). fold E in D4.
    replace (ex * - bx + ey * - by_) with (t + E) in D4 by lia.
    assert (P1 : t * ((ex * cx + ey * cy) * Y) <= E * N * Y) by (rewrite Z.mul_assoc; apply Z.mul_le_mono_nonneg_r; lia).
    assert (P2 : t * (s * (ex * bx + ey * by_)) <= E * N * Y).
    { rewrite EB. destruct (Z_le_gt_dec 0 s) as [S|S].
      - assert (0 <= s * (t + E)) by (apply Z.mul_nonneg_nonneg; lia). assert (0 <= t * (s * (t + E))) by (apply Z.mul_nonneg_nonneg; lia).
        assert (0 <= E * N * Y) by (apply Z.mul_nonneg_nonneg; [apply Z.mul_nonneg_nonneg|]; lia). replace (- t - E) with (- (t + E)) by lia. rewrite Z.mul_opp_r, Z.mul_opp_r. lia.
      - replace (t * (s * (- t - E))) with ((t * (t + E)) * - s) by ring. apply Z.le_trans with (E * N * - s); [apply Z.mul_le_mono_nonneg_r; lia|].
        apply Z.mul_le_mono_nonneg_l; [apply Z.mul_nonneg_nonneg; lia|lia]. }
    assert (P3 : E * (- X * t) <= E * (2 * N * Y)).
    { replace (E * (- X * t)) with (t * (E * - X)) by ring. rewrite ID, Z.mul_add_distr_l. lia. }
    apply Z.mul_le_mono_pos_l in P3; [exact P3|exact EP].
  Qed.
End Bound.

Section Gap.
  Variable p : point.
  Notation cr := (orient p).
  Notation I3 a b c := (incirc a b c p).

  (** The product of [a] and [a - b] relative to [p]. *)
  Definition dot_ab (a b : point) : Z := (px a - px p) * (px a - px b) + (py a - py p) * (py a - py b).
  Lemma dot_ab_le N a b : 0 <= N -> n2 p a <= N -> n2 p b <= N -> dot_ab a b <= 2 * N.
  Proof.
    unfold n2, d2, dot_ab. intros N0 NA NB. pose proof (dot_le (px a - px p) (py a - py p) (px b - px p) (py b - py p) N N0 NA NB).
    replace (px a - px b) with ((px a - px p) - (px b - px p)) by ring. replace (py a - py b) with ((py a - py p) - (py b - py p)) by ring. lia.
  Qed.
  Lemma ear_size_bc N T a b c : n2 p a <= N -> n2 p b <= N -> n2 p c <= N -> 0 <= T -> dot_ab a b <= T -> 0 < orient a b c -> cr a b <= cr b c -> 0 < cr b c -> I3 a b c <= (2 * N + T) * cr b c.
  Proof.
    intros NA NB NC T0 HT O HC HP. rewrite (O_cr p a b c) in O.
    assert (N0 : 0 <= N). { unfold n2, d2 in NA. pose proof (Z.square_nonneg (px a - px p)). pose proof (Z.square_nonneg (py a - py p)). lia. }
    pose proof (dot_ab_le N c b N0 NC NB) as HT'. unfold dot_ab, n2, d2 in *.
    assert (EI : I3 a b c = n2 p a * cr b c + n2 p b * cr c a + n2 p c * cr a b) by apply I_n2. unfold n2, d2 in EI. unfold orient in *.
    replace (px a - px b) with ((px a - px p) - (px b - px p)) in HT by ring. replace (py a - py b) with ((py a - py p) - (py b - py p)) in HT by ring.
    replace (px c - px b) with ((px c - px p) - (px b - px p)) in HT' by ring. replace (py c - py b) with ((py c - py p) - (py b - py p)) in HT' by ring.
    set (ax := px a - px p) in *. set (ay := py a - py p) in *. set (bx := px b - px p) in *. set (by_ := py b - py p) in *. set (cx := px c - px p) in *. set (cy := py c - py p) in *.
    clearbody ax ay bx by_ cx cy. rewrite EI. clear EI.
    destruct (Z_lt_le_dec (ax * by_ - ay * bx) 0) as [HY|HY].
    - pose proof (bound_in N (- cx) cy (- bx) by_ (- ax) ay ltac:(lia) ltac:(lia) ltac:(lia) T) as B.
      match goal with |- ?l <= ?r => replace l with ((- cx * - cx + cy * cy) * (- bx * ay - by_ * - ax) + (- bx * - bx + by_ * by_) * (- ax * cy - ay * - cx) + (- ax * - ax + ay * ay) * (- cx * by_ - cy * - bx)) by ring; replace r with ((2 * N + T) * (- cx * by_ - cy * - bx)) by ring end.
      apply B; lia.
    - pose proof (bound_out ax ay bx by_ cx cy T (2 * N) ltac:(lia) HY ltac:(lia) ltac:(lia) T0 ltac:(lia)) as B.
      rewrite Z.max_l in B by lia. lia.
  Qed.
  Lemma ear_size_ab N T a b c : n2 p a <= N -> n2 p b <= N -> n2 p c <= N -> 0 <= T -> dot_ab c b <= T -> 0 < orient a b c -> cr b c <= cr a b -> 0 < cr a b -> I3 a b c <= (2 * N + T) * cr a b.
  Proof.
    intros NA NB NC T0 HT O HC HP. rewrite (O_cr p a b c) in O.
    assert (N0 : 0 <= N). { unfold n2, d2 in NA. pose proof (Z.square_nonneg (px a - px p)). pose proof (Z.square_nonneg (py a - py p)). lia. }
    pose proof (dot_ab_le N a b N0 NA NB) as HT'. unfold dot_ab, n2, d2 in *.
    assert (EI : I3 a b c = n2 p a * cr b c + n2 p b * cr c a + n2 p c * cr a b) by apply I_n2. unfold n2, d2 in EI. unfold orient in *.
    replace (px a - px b) with ((px a - px p) - (px b - px p)) in HT' by ring. replace (py a - py b) with ((py a - py p) - (py b - py p)) in HT' by ring.
    replace (px c - px b) with ((px c - px p) - (px b - px p)) in HT by ring. replace (py c - py b) with ((py c - py p) - (py b - py p)) in HT by ring.
    set (ax := px a - px p) in *. set (ay := py a - py p) in *. set (bx := px b - px p) in *. set (by_ := py b - py p) in *. set (cx := px c - px p) in *. set (cy := py c - py p) in *.
    clearbody ax ay bx by_ cx cy. rewrite EI. clear EI.
    destruct (Z_lt_le_dec (bx * cy - by_ * cx) 0) as [HX|HX].
    - pose proof (bound_in N ax ay bx by_ cx cy ltac:(lia) ltac:(lia) ltac:(lia) T) as B. lia.
    - pose proof (bound_out ax ay bx by_ cx cy (2 * N) T HX ltac:(lia) ltac:(lia) ltac:(lia) ltac:(lia) T0) as B.
      rewrite Z.max_r in B by lia. lia.
  Qed.

  (** What is needed of the corners: the number by which two scores differ is known. *)
  Definition ears_sized (Q : Z) (V : list point) : Prop := forall a b c d, In a V -> In b V -> In c V -> In d V -> d <> a -> d <> c -> 0 < orient a b c ->
    (cr a b <= cr b c -> 0 < cr b c -> 0 < orient b c d -> I3 a b c * orient b c d <= Q * cr b c) /\
    (cr b c <= cr a b -> 0 < cr a b -> 0 < orient a b d -> I3 a b c * orient a b d <= Q * cr a b).

  (** If the circle of an ear that turns left holds a corner, another ear's score is
      smaller by a known factor. *)
  Theorem ear_gap Q L a b c d : good p L -> consec L a b c -> 0 < orient a b c -> 0 <= Q -> ears_sized Q L -> In d L -> 0 < incirc a b c d ->
    exists x y z, consec L x y z /\ 0 < orient x y z /\ 0 <= I3 x y z /\ 0 < I3 a b c /\
      I3 x y z * orient a b c * Q <= I3 a b c * orient x y z * (Q - 1).
  Proof.
    intros G (R & RL) O PQ HQ Id F. pose proof (in_rest _ _ _ _ _ _ RL Id F) as IR.
    assert (IL : In a L /\ In b L /\ In c L) by (repeat split; apply (rotl_In _ _ _ RL); cbn; auto). destruct IL as (Ia & Ib & Ic).
    pose proof (good_rot p _ _ RL G) as GR. assert (GT : good3 p a b c) by (apply (GR [] a [] b [] c R); reflexivity).
    assert (G1 : good3 p b c d) by (apply in_split in IR; destruct IR as (R1 & R2 & ->); apply (GR [a] b [] c R1 d R2); reflexivity).
    assert (G2 : good3 p a b d) by (apply in_split in IR; destruct IR as (R1 & R2 & ->); apply (GR [] a [] b (c :: R1) d R2); reflexivity).
    assert (DA : d <> a) by (intros ->; rewrite incirc_at in F; lia). assert (DC : d <> c) by (intros ->; rewrite inc_c in F; lia).
    destruct (HQ a b c d Ia Ib Ic Id DA DC O) as [HQ1 HQ2].
    assert (KEY : forall ou iu C x y z, 0 <= iu -> 0 < C -> (0 < ou -> I3 a b c * ou <= Q * C) -> ou * I3 a b c - orient a b c * iu = incirc a b c d * C ->
      consec L x y z -> geq (score p x y z) (ou, iu) ->
      exists x y z, consec L x y z /\ 0 < orient x y z /\ 0 <= I3 x y z /\ 0 < I3 a b c /\ I3 x y z * orient a b c * Q <= I3 a b c * orient x y z * (Q - 1)).
    { intros ou iu C x y z HI HC HB ID CX GQ. exists x, y, z. split; [exact CX|]. pose proof (consec_good p _ _ _ _ G CX) as GX.
      pose proof (good3_I0 p x y z GX) as X0. destruct GX as [_ IX]. destruct GT as [_ IT]. unfold geq, score in GQ. cbn [fst snd] in GQ.
      set (i := I3 a b c) in *. set (o := orient a b c) in *. set (i' := I3 x y z) in *. set (o' := orient x y z) in *. set (ic := incirc a b c d) in *.
      clearbody i o i' o' ic. clear - HI HC HB ID GQ X0 IX IT O F PQ.
      assert (S1 : 0 < ic * C) by (apply Z.mul_pos_pos; lia). assert (S2 : 0 <= o * iu) by (apply Z.mul_nonneg_nonneg; lia). assert (S3 : 0 < ou * i) by lia.
      assert (Pi : 0 < i) by (destruct (Z.eq_dec i 0) as [->|]; lia). assert (Pu : 0 < ou) by (apply (Z.mul_pos_cancel_r ou i Pi); exact S3).
      assert (Po : 0 < o').
      { destruct (Z_lt_le_dec 0 o') as [K|K]; [exact K|]. assert (o' * iu <= 0) by (apply Z.mul_nonpos_nonneg; lia). apply X0. destruct (Z.eq_dec i' 0) as [|NZ]; [assumption|]. assert (0 < ou * i') by (apply Z.mul_pos_pos; lia). lia. }
      repeat split; try assumption.
      assert (S4 : C <= ic * C) by nia. pose proof (HB Pu) as S5.
      assert (S6 : Q * (o * iu) <= (Q - 1) * (ou * i)) by nia.
      assert (S7 : ou * (i' * o * Q) <= ou * (i * o' * (Q - 1))); [|apply Z.mul_le_mono_pos_l in S7; [exact S7|exact Pu]].
      replace (ou * (i' * o * Q)) with ((ou * i') * (o * Q)) by ring. apply Z.le_trans with ((o' * iu) * (o * Q)); [apply Z.mul_le_mono_nonneg_r; nia|].
      replace (o' * iu * (o * Q)) with (o' * (Q * (o * iu))) by ring. replace (ou * (i * o' * (Q - 1))) with (o' * ((Q - 1) * (ou * i))) by ring.
      apply Z.mul_le_mono_nonneg_l; lia. }
    destruct (Z_le_gt_dec (cr a b) (cr b c)) as [QQ|QQ].
    - assert (BC : 0 < cr b c) by (destruct GT as [K _]; unfold CC in K; lia).
      destruct (better_bc p L a b c R d RL G BC IR) as (x & y & z & CX & GQ). apply (KEY (orient b c d) (I3 b c d) (cr b c) x y z); auto; [apply G1|].
      pose proof (pen p b c a d) as P. rewrite (orient_rot3 a b c), (incirc_rot a b c p), (incirc_rot a b c d) in P. exact P.
    - assert (AB : 0 < cr a b) by (destruct GT as [K _]; unfold CC in K; lia).
      destruct (better_ab p L a b c R d RL G AB IR) as (x & y & z & CX & GQ). apply (KEY (orient a b d) (I3 a b d) (cr a b) x y z); auto; [apply G2|intros; apply HQ2; lia|].
      apply pen.
  Qed.
End Gap.
