(** The comparison Remove sorts with: counter-clockwise order around p. *)
From Coq Require Import ZArith List Bool Lia Psatz Permutation Sorted.
From Verif Require Import M_Geom S_Geom M_Raster S_Raster L_Raster1 L_Raster6 M_Delaunay S_Delaunay L_PMap L_Plane L_BW L_Ear.
Import ListNotations.
Local Open Scope Z_scope.

(** Vectors (x, y): the left half comes first, and each half is ordered by angle. *)
Definition bef (x y x' y' : Z) : Prop :=
  (x < 0 /\ 0 <= x') \/ (((x < 0 /\ x' < 0) \/ (0 <= x /\ 0 <= x')) /\ (0 < x * y' - x' * y \/ (x = 0 /\ x' = 0 /\ y < 0 /\ 0 < y'))).
(** Not in the same direction (and not zero). *)
Definition apart (x y x' y' : Z) : Prop := x * y' - x' * y <> 0 \/ x * x' + y * y' < 0.

Lemma half_det x y x' y' : apart x y x' y' -> (0 <= x /\ 0 <= x' /\ ~ (x = 0 /\ x' = 0)) \/ (x < 0 /\ x' < 0) -> x * y' - x' * y <> 0.
Proof.
  intros A H E. destruct A as [A|A]; [contradiction|]. destruct H as [(X & X' & N)|[X X']].
  - destruct (Z.eq_dec x 0) as [->|]; [assert (y = 0) by nia; subst y; lia|].
    destruct (Z.eq_dec x' 0) as [->|]; [assert (y' = 0) by nia; subst y'; lia|].
    assert (0 < x * x') by nia. assert (y * y' < 0) by lia. assert (x * y' = x' * y) by lia. clear A E. destruct (Z_lt_le_dec y 0), (Z_lt_le_dec y' 0); nia.
  - assert (0 < x * x') by nia. assert (y * y' < 0) by lia. assert (x * y' = x' * y) by lia. clear A E. destruct (Z_lt_le_dec y 0), (Z_lt_le_dec y' 0); nia.
Qed.
Lemma bef_total x y x' y' : apart x y x' y' -> bef x y x' y' \/ bef x' y' x y.
Proof.
  intros H. pose proof (half_det x y x' y' H) as N. unfold bef, apart in *. destruct (Z_lt_le_dec x 0), (Z_lt_le_dec x' 0); try lia.
  destruct (Z.eq_dec x 0) as [->|]; [destruct (Z.eq_dec x' 0) as [->|]|]; try lia.
  assert (YY : y * y' < 0) by lia. assert (SG : (y < 0 /\ 0 < y') \/ (0 < y /\ y' < 0)) by (clear - YY; destruct (Z_lt_le_dec y 0), (Z_lt_le_dec y' 0); nia). lia.
Qed.
Lemma bef_anti x y x' y' : bef x y x' y' -> bef x' y' x y -> False.
Proof. unfold bef. nia. Qed.
Lemma bef_trans x y x' y' x'' y'' : bef x y x' y' -> bef x' y' x'' y'' -> bef x y x'' y''.
Proof.
  unfold bef. intros H1 H2.
  assert (ID : x' * (x * y'' - x'' * y) = x'' * (x * y' - x' * y) + x * (x' * y'' - x'' * y')) by ring.
  set (a := x * y' - x' * y) in *. set (b := x' * y'' - x'' * y') in *. set (c := x * y'' - x'' * y) in *.
  destruct (Z_lt_le_dec x 0), (Z_lt_le_dec x' 0), (Z_lt_le_dec x'' 0); try lia.
  - right. split; [lia|]. assert (A : 0 < a \/ (x = 0 /\ x' = 0 /\ y < 0 /\ 0 < y')) by lia. assert (B : 0 < b \/ (x' = 0 /\ x'' = 0 /\ y' < 0 /\ 0 < y'')) by lia.
    destruct (Z.eq_dec x' 0) as [E|E].
    + subst x'. assert (a = x * y') by (unfold a; ring). assert (b = - x'' * y') by (unfold b; ring). clearbody a b.
      exfalso. clear H1 H2 ID. destruct A as [A|A], B as [B|B]; try lia. clear - A B H H0 l l1. destruct (Z_lt_le_dec 0 y'); nia.
    + assert (Aa : 0 < a) by lia. assert (Bb : 0 < b) by lia. destruct (Z.eq_dec x 0) as [Ex|Ex]; [destruct (Z.eq_dec x'' 0) as [Ez|Ez]|].
      * right. subst x x''. split; [reflexivity|]. split; [reflexivity|]. assert (a = - x' * y) by (unfold a; ring). assert (b = x' * y'') by (unfold b; ring). nia.
      * left. clearbody a b c. clear H1 H2. assert (0 < x'' * a) by nia. assert (0 <= x * b) by nia. nia.
      * left. clearbody a b c. clear H1 H2. assert (0 <= x'' * a) by nia. assert (0 < x * b) by nia. nia.
Qed.
(** Three vectors in this order go round: two of the three turns are to the left. *)
Lemma bef_round x y x' y' x'' y'' : apart x y x' y' -> apart x' y' x'' y'' -> apart x y x'' y'' -> bef x y x' y' -> bef x' y' x'' y'' ->
  let a := x * y' - x' * y in let b := x' * y'' - x'' * y' in let c := x'' * y - x * y'' in
  (0 < a /\ 0 < b) \/ (0 < b /\ 0 < c) \/ (0 < c /\ 0 < a).
Proof.
  cbv zeta. unfold bef, apart. intros N1 N2 N3 H1 H2. set (a := x * y' - x' * y) in *. set (b := x' * y'' - x'' * y') in *. set (c := x'' * y - x * y'').
  assert (EC : x * y'' - x'' * y = - c) by (unfold c; ring). rewrite EC in N3.
  assert (IX : x'' * a + x * b + x' * c = 0) by (unfold a, b, c; ring). assert (IY : y'' * a + y * b + y' * c = 0) by (unfold a, b, c; ring).
  destruct (Z_lt_le_dec x 0), (Z_lt_le_dec x' 0), (Z_lt_le_dec x'' 0); try lia.
  - assert (A : 0 < a) by lia. destruct (Z_lt_le_dec 0 b) as [B|B]; [auto|]. right. right. split; [|exact A].
    destruct (Z.eq_dec x'' 0) as [E|E]; [|assert (0 < x'' * a) by nia; assert (0 <= x * b) by nia; nia].
    subst x''. assert (Eb : b = x' * y'') by (unfold b; ring). assert (Ec : c = - x * y'') by (unfold c; ring). assert (y'' <> 0) by (intros ->; lia). nia.
Qed.

Definition before (p u v : point) : Prop := bef (px u - px p) (py u - py p) (px v - px p) (py v - py p).
Definition apartp (p u v : point) : Prop := apart (px u - px p) (py u - py p) (px v - px p) (py v - py p).
Definition near (p v : point) : Prop := Z.abs (px v - px p) <= 20480 /\ Z.abs (py v - py p) <= 20480.

Lemma hull_less_before p u v : near p u -> near p v -> apartp p u v -> exists b, hull_less p u v = Some b /\ (b = true <-> before p u v).
Proof.
  intros [U1 U2] [V1 V2] A. unfold hull_less. rewrite !i16_id by (unfold int16_range; lia). unfold before, bef, apartp, apart in *.
  set (x := px u - px p) in *. set (y := py u - py p) in *. set (x' := px v - px p) in *. set (y' := py v - py p) in *.
  assert (EY : (py v >? py u) = (y' >? y)) by (unfold y, y'; rewrite !Z.gtb_ltb; destruct (Z.ltb_spec (py u) (py v)), (Z.ltb_spec (py u - py p) (py v - py p)); lia).
  assert (EY' : (py u >? py v) = (y >? y')) by (unfold y, y'; rewrite !Z.gtb_ltb; destruct (Z.ltb_spec (py v) (py u)), (Z.ltb_spec (py v - py p) (py u - py p)); lia).
  rewrite EY, EY'. clearbody x y x' y'. clear EY EY' U1 U2 V1 V2. rewrite !Z.geb_leb, !Z.gtb_ltb.
  replace (x' * y - x * y') with (- (x * y' - x' * y)) by ring.
  destruct (Z.leb_spec 0 x'), (Z.ltb_spec x 0); cbn [andb].
  - eexists. split; [reflexivity|]. split; [lia|auto].
  - destruct (Z.ltb_spec x' 0); [lia|]. cbn [andb]. destruct (Z.eqb_spec x' 0) as [E1|E1], (Z.eqb_spec x 0) as [E2|E2]; cbn [andb].
    + subst. assert (YY : y * y' < 0) by lia. assert (SG : (y < 0 /\ 0 < y') \/ (0 < y /\ y' < 0)) by (clear - YY; destruct (Z_lt_le_dec y 0), (Z_lt_le_dec y' 0); nia). clear YY A. eexists. split; [reflexivity|]. destruct (Z.leb_spec 0 y'), (Z.leb_spec 0 y); cbn [orb];
        repeat match goal with |- context[?a <? ?b] => destruct (Z.ltb_spec a b) end; split; intros; try discriminate; lia.
    + destruct (Z.ltb_spec (- (x * y' - x' * y)) 0); [eexists; split; [reflexivity|split; [lia|reflexivity]]|].
      destruct (Z.ltb_spec 0 (- (x * y' - x' * y))); [eexists; split; [reflexivity|split; [discriminate|lia]]|]. exfalso. apply (half_det x y x' y' A); lia.
    + destruct (Z.ltb_spec (- (x * y' - x' * y)) 0); [eexists; split; [reflexivity|split; [lia|reflexivity]]|].
      destruct (Z.ltb_spec 0 (- (x * y' - x' * y))); [eexists; split; [reflexivity|split; [discriminate|lia]]|]. exfalso. apply (half_det x y x' y' A); lia.
    + destruct (Z.ltb_spec (- (x * y' - x' * y)) 0); [eexists; split; [reflexivity|split; [lia|reflexivity]]|].
      destruct (Z.ltb_spec 0 (- (x * y' - x' * y))); [eexists; split; [reflexivity|split; [discriminate|lia]]|]. exfalso. apply (half_det x y x' y' A); lia.
  - destruct (Z.ltb_spec x' 0); [|lia]. destruct (Z.leb_spec 0 x); [lia|]. cbn [andb]. destruct (Z.eqb_spec x' 0); [lia|]. cbn [andb].
    destruct (Z.ltb_spec (- (x * y' - x' * y)) 0); [eexists; split; [reflexivity|split; [lia|reflexivity]]|].
    destruct (Z.ltb_spec 0 (- (x * y' - x' * y))); [eexists; split; [reflexivity|split; [discriminate|lia]]|]. exfalso. apply (half_det x y x' y' A); lia.
  - destruct (Z.ltb_spec x' 0); [|lia]. destruct (Z.leb_spec 0 x); [|lia]. cbn [andb]. eexists. split; [reflexivity|]. split; [discriminate|lia].
Qed.
