(** Cutting ears off the hole a removed point leaves (Devillers' removal), as plane
    geometry over the integers.  [p] is the removed point. *)
From Coq Require Import ZArith List Bool Lia Psatz Permutation.
From Verif Require Import M_Geom S_Geom M_Raster S_Raster L_Raster1 L_Raster6 S_Delaunay L_Plane L_BW.
Import ListNotations.
Local Open Scope Z_scope.

(** * Comparing fractions o/i, where i = 0 stands for infinity *)
Definition valid (t : Z * Z) : Prop := 0 < snd t \/ (snd t = 0 /\ 0 < fst t).
Definition geq (t u : Z * Z) : Prop := fst u * snd t <= fst t * snd u.
Definition gt (t u : Z * Z) : Prop := fst u * snd t < fst t * snd u.

Lemma geq_trans t u v : valid t -> valid u -> valid v -> geq t u -> geq u v -> geq t v.
Proof.
  destruct t as [o1 i1], u as [o2 i2], v as [o3 i3]. unfold valid, geq. cbn [fst snd]. intros V1 V2 V3 H1 H2.
  destruct V2 as [P|[Z0 P]].
  - assert (i2 * (o3 * i1) <= i2 * (o1 * i3)); [|nia].
    assert (i1 * (o3 * i2) <= i1 * (o2 * i3)) by nia. assert (i3 * (o2 * i1) <= i3 * (o1 * i2)) by nia. lia.
  - subst i2. assert (i1 = 0) by nia. subst i1. nia.
Qed.
Lemma geq_gt t u v : valid t -> valid u -> valid v -> geq t u -> gt u v -> gt t v.
Proof.
  intros V1 V2 V3 H1 H2. destruct (Z_lt_le_dec (fst v * snd t) (fst t * snd v)) as [Q|Q]; [exact Q|].
  pose proof (geq_trans v t u V3 V1 V2 Q H1) as C. unfold geq, gt in *. lia.
Qed.
Lemma geq_refl t : geq t t. Proof. unfold geq. lia. Qed.
Lemma geq_or t u : geq t u \/ geq u t. Proof. unfold geq. lia. Qed.
Lemma arg_best {A} (f : A -> Z * Z) (le : Z * Z -> Z * Z -> Prop) (l : list A) :
  (forall t u, le t u \/ le u t) -> (forall x y z, In x l -> In y l -> In z l -> le (f x) (f y) -> le (f y) (f z) -> le (f x) (f z)) ->
  l <> [] -> exists x, In x l /\ forall y, In y l -> le (f x) (f y).
Proof.
  intros T. induction l as [|a l IH]; [congruence|]. intros TR _. destruct l as [|b l].
  - exists a. split; [left; reflexivity|]. intros y [<-|[]]. destruct (T (f a) (f a)); assumption.
  - destruct IH as (x & Ix & Hx); [|discriminate|]. { intros x y z X Y W. apply TR; right; assumption. }
    destruct (T (f a) (f x)) as [Q|Q].
    + exists a. split; [left; reflexivity|]. intros y [<-|I]; [destruct (T (f a) (f a)); assumption|].
      apply (TR a x y); auto; [left; reflexivity|right; exact Ix|right; exact I].
    + exists x. split; [right; exact Ix|]. intros y [<-|I]; [exact Q|auto].
Qed.

Section Ear.
  Variable p : point.
  Notation cr := (orient p).
  Notation I3 a b c := (incirc a b c p).

  Lemma cr_anti a b : cr b a = - cr a b. Proof. unfold orient. ring. Qed.
  Lemma cr_third a b : orient a b p = cr a b. Proof. unfold orient. ring. Qed.
  Lemma I_swap23 a b c : I3 a c b = - I3 a b c. Proof. unfold incirc. ring. Qed.
  Lemma O_swap23 a b c : orient a c b = - orient a b c. Proof. unfold orient. ring. Qed.
  Lemma inc_swap23 a b c x : incirc a c b x = - incirc a b c x. Proof. unfold incirc. ring. Qed.
  Lemma O_cr a b c : orient a b c = cr a b + cr b c + cr c a. Proof. unfold orient. ring. Qed.
  Definition n2 (a : point) : Z := d2 a p.
  Lemma I_n2 a b c : I3 a b c = n2 a * cr b c + n2 b * cr c a + n2 c * cr a b. Proof. unfold incirc, n2, d2, orient. ring. Qed.
  Lemma I_shift b s v : incirc p b s v = - I3 b s v. Proof. unfold incirc. ring. Qed.

  (** x, y, z go round p in this order. *)
  Definition CC (x y z : point) : Prop := (0 < cr x y /\ 0 < cr y z) \/ (0 < cr y z /\ 0 < cr z x) \/ (0 < cr z x /\ 0 < cr x y).
  Definition good3 (x y z : point) : Prop := CC x y z /\ 0 <= I3 x y z.
  Definition score (x y z : point) : Z * Z := (orient x y z, I3 x y z).
  Lemma score_rot x y z : score y z x = score x y z. Proof. unfold score. rewrite orient_rot3, incirc_rot. reflexivity. Qed.
  Lemma good3_rot x y z : good3 x y z -> good3 y z x.
  Proof. unfold good3, CC. rewrite (incirc_rot x y z p). tauto. Qed.

  (** p, a, b, c on a circle in this order: the triangle turns left. *)
  Lemma cocircular a b c : 0 < cr a b -> 0 < cr b c -> I3 a b c = 0 -> 0 < cr a c /\ 0 < orient a b c.
  Proof.
    intros A B E. rewrite I_n2 in E. assert (NP : forall x y, 0 < cr x y -> 0 < n2 x /\ 0 < n2 y).
    { intros x y H. unfold n2. split; apply d2_pos; intros ->; unfold orient in H; lia. }
    destruct (NP _ _ A) as [Na Nb]. destruct (NP _ _ B) as [_ Nc].
    assert (AC : 0 < cr a c).
    { rewrite (cr_anti a c) in E. destruct (Z_lt_le_dec 0 (cr a c)) as [Q|Q]; [exact Q|]. nia. }
    split; [exact AC|].
    assert (ID : cr a c * cr a c * n2 b = (cr b c + cr a b) * (cr b c * n2 a + cr a b * n2 c) - cr b c * cr a b * d2 a c).
    { unfold n2, d2, orient. ring. }
    assert (D : 0 < d2 a c). { apply d2_pos. intros ->. unfold orient in AC. lia. }
    rewrite O_cr, (cr_anti a c). rewrite (cr_anti a c) in E.
    set (u := cr a b) in *. set (v := cr b c) in *. set (w := cr a c) in *. set (x := n2 a) in *. set (y := n2 b) in *. set (z := n2 c) in *. set (d := d2 a c) in *. clearbody u v w x y z d.
    assert (E2 : v * x + u * z = y * w) by lia. rewrite E2 in ID.
    assert (0 < v * u) by nia. assert (0 < v * u * d) by nia. assert (0 < (v + u - w) * (w * y)) by lia. assert (0 < w * y) by nia. nia.
  Qed.
  Lemma good3_I0 x y z : good3 x y z -> I3 x y z = 0 -> 0 < orient x y z.
  Proof.
    intros [[[A B]|[[A B]|[A B]]] _] E.
    - apply (cocircular x y z A B E).
    - rewrite <- orient_rot3. apply (cocircular y z x A B). rewrite incirc_rot. exact E.
    - rewrite <- 2 orient_rot3. apply (cocircular z x y A B). rewrite 2 incirc_rot. exact E.
  Qed.
  Lemma good3_valid x y z : good3 x y z -> valid (score x y z).
  Proof. intros G. unfold valid, score. cbn [fst snd]. pose proof (good3_I0 x y z G). destruct G as [_ G]. destruct (Z.eq_dec (I3 x y z) 0); [right; auto|left; lia]. Qed.

  Lemma pen a b c d : orient a b d * I3 a b c - orient a b c * I3 a b d = incirc a b c d * cr a b.
  Proof. rewrite pencil, cr_third. reflexivity. Qed.

  (** Tilting a plane about an edge. *)
  Lemma above_edge x y z e : 0 < cr x y -> incirc x y z e <= 0 -> geq (score x e y) (score x y z).
  Proof.
    intros C F. pose proof (pen x y z e) as Q. 
    unfold geq, score. cbn [fst snd]. rewrite (O_swap23 x y e), (I_swap23 x y e). nia.
  Qed.
  Lemma low_edge x c e y : 0 < cr x y -> geq (score x e y) (score x c y) -> incirc x c y e <= 0.
  Proof.
    intros C G. pose proof (pen x y c e) as Q. unfold geq, score in G. cbn [fst snd] in G.
    rewrite (O_swap23 x y e), (I_swap23 x y e), (O_swap23 x y c), (I_swap23 x y c) in G. rewrite (inc_swap23 x y c e). nia.
  Qed.
  Lemma in_side x y c e : 0 < cr x y -> geq (score x y c) (score x y e) -> incirc x y c e <= 0.
  Proof. intros C G. pose proof (pen x y c e) as Q. unfold geq, score in G. cbn [fst snd] in G. nia. Qed.
  Lemma in_side_gt x y c e : 0 < cr x y -> 0 < incirc x y c e -> gt (score x y e) (score x y c).
  Proof. intros C F. pose proof (pen x y c e) as Q. unfold gt, score. cbn [fst snd]. nia. Qed.

  (** * Polygons *)
  Definition good (L : list point) : Prop := forall l1 x l2 y l3 z l4, L = l1 ++ x :: l2 ++ y :: l3 ++ z :: l4 -> good3 x y z.

  Lemma good_sub l1 L l2 : good (l1 ++ L ++ l2) -> good L.
  Proof.
    intros G k1 x k2 y k3 z k4 ->. apply (G (l1 ++ k1) x k2 y k3 z (k4 ++ l2)). rewrite <- !app_assoc. cbn [app]. rewrite <- !app_assoc. cbn [app]. rewrite <- !app_assoc. reflexivity.
  Qed.
  Lemma good_drop l1 b l2 : good (l1 ++ b :: l2) -> good (l1 ++ l2).
  Proof.
    intros G k1 x k2 y k3 z k4 E.
    assert (H : forall (u v k : list point) a w, u ++ v = k ++ a :: w -> (exists w', v = w' ++ a :: w /\ k = u ++ w') \/ (exists u', u = k ++ a :: u' /\ w = u' ++ v)).
    { clear. induction u as [|h u IH]; intros v k a w E; [left; exists k; auto|]. destruct k as [|h' k].
      - cbn in E. injection E as -> <-. right. exists u. auto.
      - cbn in E. injection E as -> E. destruct (IH _ _ _ _ E) as [(w' & -> & ->)|(u' & -> & ->)]; [left; exists w'; auto|right; exists u'; auto]. }
    destruct (H _ _ _ _ _ E) as [(w' & -> & ->)|(u' & -> & E2)].
    { apply (G (l1 ++ b :: w') x k2 y k3 z k4). rewrite <- app_assoc. reflexivity. }
    symmetry in E2. destruct (H _ _ _ _ _ E2) as [(w' & -> & ->)|(u2 & -> & E3)].
    { apply (G k1 x (u' ++ b :: w') y k3 z k4). repeat (rewrite <- ?app_assoc; cbn [app]). reflexivity. }
    symmetry in E3. destruct (H _ _ _ _ _ E3) as [(w' & -> & ->)|(u3 & -> & ->)].
    { apply (G k1 x k2 y (u2 ++ b :: w') z k4). repeat (rewrite <- ?app_assoc; cbn [app]). reflexivity. }
    apply (G k1 x k2 y k3 z (u3 ++ b :: l2)). repeat (rewrite <- ?app_assoc; cbn [app]). reflexivity.
  Qed.
  Definition rotl (L M : list point) : Prop := exists u v, L = u ++ v /\ M = v ++ u.
  Lemma rotl_refl L : rotl L L. Proof. exists [], L. rewrite app_nil_r. auto. Qed.
  Lemma rotl_sym L M : rotl L M -> rotl M L. Proof. intros (u & v & -> & ->). exists v, u. auto. Qed.
  Lemma app_split {A} (u v s t : list A) : u ++ v = s ++ t -> (exists m, s = u ++ m /\ v = m ++ t) \/ (exists m, u = s ++ m /\ t = m ++ v).
  Proof.
    revert s. induction u as [|h u IH]; intros s E; [left; exists s; auto|]. destruct s as [|h' s]; [right; exists (h :: u); auto|].
    cbn in E. injection E as -> E. destruct (IH _ E) as [(m & -> & ->)|(m & -> & ->)]; [left|right]; exists m; auto.
  Qed.
  Lemma rotl_trans L M N : rotl L M -> rotl M N -> rotl L N.
  Proof.
    intros (u & v & -> & ->) (s & t & E & ->). destruct (app_split _ _ _ _ E) as [(m & -> & ->)|(m & -> & ->)].
    - exists m, (t ++ v). rewrite <- !app_assoc. auto.
    - exists (u ++ s), m. rewrite <- !app_assoc. auto.
  Qed.
  Lemma rotl_In L M x : rotl L M -> In x L <-> In x M.
  Proof. intros (u & v & -> & ->). rewrite !in_app_iff. tauto. Qed.
  Lemma rotl_length L M : rotl L M -> length L = length M.
  Proof. intros (u & v & -> & ->). rewrite !app_length. lia. Qed.
  Lemma rotl_perm L M : rotl L M -> Permutation L M.
  Proof. intros (u & v & -> & ->). apply Permutation_app_comm. Qed.
  Lemma good_rot1 a L : good (a :: L) -> good (L ++ [a]).
  Proof.
    intros G l1 x l2 y l3 z l4 E. destruct l4 as [|h l4] using rev_ind.
    - assert (E' : L ++ [a] = (l1 ++ x :: l2 ++ y :: l3) ++ [z]) by (rewrite E; repeat (rewrite <- ?app_assoc; cbn [app]); reflexivity).
      apply app_inj_tail in E'. destruct E' as [-> ->]. apply good3_rot. apply (G [] z l1 x l2 y l3). reflexivity.
    - assert (E' : L ++ [a] = (l1 ++ x :: l2 ++ y :: l3 ++ z :: l4) ++ [h]) by (rewrite E; repeat (rewrite <- ?app_assoc; cbn [app]); reflexivity).
      apply app_inj_tail in E'. destruct E' as [-> ->]. apply (G (h :: l1) x l2 y l3 z l4). reflexivity.
  Qed.
  Lemma good_rot L M : rotl L M -> good L -> good M.
  Proof.
    intros (u & v & -> & ->). revert v. induction u as [|a u IH]; intros v; [rewrite app_nil_r; auto|].
    intros G. cbn [app] in G. apply good_rot1 in G. rewrite <- app_assoc in G. apply IH in G. rewrite <- app_assoc in G. exact G.
  Qed.

  (** Over a chain seen from p under less than half a turn some ear is at least as
      good as every triangle on the chain's base. *)
  Lemma chain_ear g : valid g -> forall n M x y, (length M <= n)%nat -> M <> [] -> good (x :: M ++ [y]) -> 0 < cr x y ->
    (forall c, In c M -> geq (score x c y) g) ->
    exists u a b c v, x :: M ++ [y] = u ++ a :: b :: c :: v /\ geq (score a b c) g.
  Proof.
    intros Vg n. revert g Vg. induction n as [|n IH]; intros g Vg M x y Hn NE G C H; [destruct M; [congruence|cbn in Hn; lia]|].
    assert (G3 : forall c, In c M -> good3 x c y).
    { intros c I. apply in_split in I. destruct I as (M1 & M2 & ->). apply (G [] x M1 c M2 y []). cbn [app]. rewrite <- app_assoc. reflexivity. }
    destruct (arg_best (fun c => score x c y) (fun t u => geq u t) M) as (c & Ic & Hc).
    { intros t u. destruct (geq_or t u); auto. }
    { intros a b c A B D P Q. eapply geq_trans; [| | |exact Q|exact P]; apply good3_valid, G3; assumption. }
    { exact NE. }
    assert (LOW : forall e, In e M -> incirc x c y e <= 0) by (intros e I; apply low_edge; auto).
    pose proof (G3 c Ic) as Gc. assert (0 < cr x c /\ 0 < cr c y) as [C1 C2].
    { destruct Gc as [Q _]. unfold CC in Q. pose proof (cr_anti x y). lia. }
    apply in_split in Ic. destruct Ic as (M1 & M2 & ->). destruct M1 as [|m1 M1].
    - destruct M2 as [|m2 M2].
      + exists [], x, c, y, []. split; [reflexivity|]. apply H. left. reflexivity.
      + destruct (IH (score x c y) (good3_valid _ _ _ Gc) (m2 :: M2) c y) as (u & a & b & d & v & E & Q).
        * cbn [length app] in *. lia.
        * discriminate.
        * apply (good_sub [x] _ []). rewrite app_nil_r. exact G.
        * exact C2.
        * intros e I. rewrite <- score_rot. rewrite <- (score_rot x c y).
          assert (X : geq (score c e y) (score c y x)). { apply above_edge; [exact C2|]. rewrite incirc_rot. apply LOW. right. exact I. }
          rewrite score_rot. exact X.
        * exists (x :: u), a, b, d, v. split; [cbn [app] in *; rewrite E; reflexivity|].
          eapply geq_trans; [| | |exact Q|apply H; left; reflexivity]; [|apply good3_valid, Gc|exact Vg].
          apply good3_valid. eapply (G (x :: u) a [] b [] d v). cbn [app] in *. rewrite E. reflexivity.
    - destruct (IH (score x c y) (good3_valid _ _ _ Gc) (m1 :: M1) x c) as (u & a & b & d & v & E & Q).
      + cbn [length app] in *. rewrite app_length in Hn. cbn [length] in Hn. lia.
      + discriminate.
      + apply (good_sub [] _ (M2 ++ [y])). cbn [app] in *. repeat (rewrite <- ?app_assoc in G; cbn [app] in G). repeat (rewrite <- ?app_assoc; cbn [app]). exact G.
      + exact C1.
      + intros e I. apply above_edge; [exact C1|]. apply LOW. apply in_or_app. left. exact I.
      + exists u, a, b, d, (v ++ M2 ++ [y]).
        assert (E' : x :: ((m1 :: M1) ++ c :: M2) ++ [y] = u ++ a :: b :: d :: v ++ M2 ++ [y]).
        { transitivity ((x :: (m1 :: M1) ++ [c]) ++ M2 ++ [y]); [cbn [app]; repeat (rewrite <- ?app_assoc; cbn [app]); reflexivity|].
          rewrite E. repeat (rewrite <- ?app_assoc; cbn [app]). reflexivity. }
        split; [exact E'|]. eapply geq_trans; [| | |exact Q|apply H; apply in_or_app; right; left; reflexivity]; [|apply good3_valid, Gc|exact Vg].
        apply good3_valid. apply (G u a [] b [] d (v ++ M2 ++ [y])). exact E'.
  Qed.
  (** * The best ear *)
  Definition consec (L : list point) (x y z : point) : Prop := exists R, rotl L (x :: y :: z :: R).
  Lemma consec_good L x y z : good L -> consec L x y z -> good3 x y z.
  Proof. intros G (R & H). apply (good_rot _ _ H G [] x [] y [] z R). reflexivity. Qed.
  Lemma consec_in L u x y z v : rotl L (u ++ x :: y :: z :: v) -> consec L x y z.
  Proof. intros H. exists (v ++ u). eapply rotl_trans; [exact H|]. exists u, (x :: y :: z :: v). auto. Qed.
  Lemma inc_b a b c : incirc a b c b = 0. Proof. unfold incirc. ring. Qed.
  Lemma inc_c a b c : incirc a b c c = 0. Proof. unfold incirc. ring. Qed.

  (** Some ear is at least as good as any triangle on a side of an ear. *)
  Lemma better_bc L a b c R d0 : rotl L (a :: b :: c :: R) -> good L -> 0 < cr b c -> In d0 R ->
    exists x y z, consec L x y z /\ geq (score x y z) (score b c d0).
  Proof.
    intros RL G BC I0R. pose proof (good_rot _ _ RL G) as GR. assert (GT : good3 a b c) by (apply (GR [] a [] b [] c R); reflexivity).
    assert (G3 : forall d, In d (R ++ [a]) -> good3 b c d).
    { intros d I. apply in_app_or in I. destruct I as [I|[<-|[]]]; [|apply good3_rot, GT].
      apply in_split in I. destruct I as (R1 & R2 & ->). apply (GR [a] b [] c R1 d R2). reflexivity. }
    destruct (arg_best (fun d => score b c d) geq (R ++ [a])) as (d & Id & Hd).
    { apply geq_or. } { intros x y z X Y W. apply geq_trans; apply good3_valid, G3; assumption. } { destruct R; discriminate. }
    pose proof (good3_valid _ _ _ (G3 d Id)) as Vd.
    assert (ID0 : In d0 (R ++ [a])) by (apply in_or_app; left; exact I0R).
    assert (STOP : forall x y z, consec L x y z -> geq (score x y z) (score b c d) -> exists x y z, consec L x y z /\ geq (score x y z) (score b c d0)).
    { intros x y z C Q. exists x, y, z. split; [exact C|]. apply (geq_trans _ (score b c d)); [apply good3_valid, (consec_good L); assumption|exact Vd|apply good3_valid, G3, ID0|exact Q|apply Hd, ID0]. }
    assert (LOW : forall e, In e (R ++ [a]) -> incirc b c d e <= 0) by (intros e I; apply in_side; auto).
    apply in_app_or in Id. destruct Id as [Id|[<-|[]]]; [|apply (STOP a b c); [exists R; exact RL|rewrite <- (score_rot a b c); apply geq_refl]].
    pose proof (G3 d (in_or_app _ _ _ (or_introl Id))) as Gd. apply in_split in Id. destruct Id as (R1 & R2 & ->).
    destruct (Z_lt_le_dec 0 (cr c d)) as [CD|CD].
    - destruct R1 as [|r1 R1].
      + apply (STOP b c d); [|apply geq_refl]. eapply (consec_in L [a] b c d R2). exact RL.
      + destruct (chain_ear (score b c d) Vd (length (r1 :: R1)) (r1 :: R1) c d) as (u & x & y & z & v & E & Q); [lia|discriminate| |exact CD| |].
        * apply (good_sub [a; b] _ R2). cbn [app] in *. rewrite <- app_assoc. exact GR.
        * intros e I. rewrite <- (score_rot b c d). apply above_edge; [exact CD|]. rewrite incirc_rot. apply LOW. apply in_or_app. left. apply in_or_app. left. exact I.
        * apply (STOP x y z); [|exact Q]. apply (consec_in L ([a; b] ++ u) x y z (v ++ R2)).
          replace (([a; b] ++ u) ++ x :: y :: z :: v ++ R2) with ([a; b] ++ (c :: (r1 :: R1) ++ [d]) ++ R2); [cbn [app] in *; rewrite <- app_assoc; exact RL|].
          rewrite E. repeat (rewrite <- ?app_assoc; cbn [app]). reflexivity.
    - assert (DB : 0 < cr d b) by (destruct Gd as [Q _]; unfold CC in Q; lia).
      assert (RL2 : rotl L ((d :: (R2 ++ [a]) ++ [b]) ++ c :: R1)).
      { eapply rotl_trans; [exact RL|]. exists (a :: b :: c :: R1), (d :: R2). cbn [app]. repeat (rewrite <- ?app_assoc; cbn [app]). auto. }
      destruct (chain_ear (score b c d) Vd (length (R2 ++ [a])) (R2 ++ [a]) d b) as (u & x & y & z & v & E & Q); [lia|destruct R2; discriminate| |exact DB| |].
      + apply (good_sub [] _ (c :: R1)). apply (good_rot _ _ RL2 G).
      + intros e I. rewrite <- (score_rot b c d), <- (score_rot c d b). apply above_edge; [exact DB|].
        rewrite 2 incirc_rot. apply LOW. apply in_app_or in I. rewrite <- app_assoc. apply in_or_app. right. destruct I as [I|I]; [right; apply in_or_app; left; exact I|right; apply in_or_app; right; exact I].
      + apply (STOP x y z); [|exact Q]. apply (consec_in L u x y z (v ++ c :: R1)).
        rewrite E in RL2. repeat (rewrite <- ?app_assoc in RL2; cbn [app] in RL2). exact RL2.
  Qed.
  Lemma better_ab L a b c R d0 : rotl L (a :: b :: c :: R) -> good L -> 0 < cr a b -> In d0 R ->
    exists x y z, consec L x y z /\ geq (score x y z) (score a b d0).
  Proof.
    intros RL G AB I0R. pose proof (good_rot _ _ RL G) as GR. assert (GT : good3 a b c) by (apply (GR [] a [] b [] c R); reflexivity).
    assert (G3 : forall d, In d (c :: R) -> good3 a b d).
    { intros d [<-|I]; [exact GT|]. apply in_split in I. destruct I as (R1 & R2 & ->). apply (GR [] a [] b (c :: R1) d R2). reflexivity. }
    destruct (arg_best (fun d => score a b d) geq (c :: R)) as (d & Id & Hd).
    { apply geq_or. } { intros x y z X Y W. apply geq_trans; apply good3_valid, G3; assumption. } { discriminate. }
    pose proof (good3_valid _ _ _ (G3 d Id)) as Vd.
    assert (ID0 : In d0 (c :: R)) by (right; exact I0R).
    assert (STOP : forall x y z, consec L x y z -> geq (score x y z) (score a b d) -> exists x y z, consec L x y z /\ geq (score x y z) (score a b d0)).
    { intros x y z C Q. exists x, y, z. split; [exact C|]. apply (geq_trans _ (score a b d)); [apply good3_valid, (consec_good L); assumption|exact Vd|apply good3_valid, G3, ID0|exact Q|apply Hd, ID0]. }
    assert (LOW : forall e, In e (c :: R) -> incirc a b d e <= 0) by (intros e I; apply in_side; auto).
    destruct Id as [<-|Id]; [apply (STOP a b c); [exists R; exact RL|apply geq_refl]|].
    pose proof (G3 d (or_intror Id)) as Gd. apply in_split in Id. destruct Id as (R1 & R2 & ->).
    destruct (Z_lt_le_dec 0 (cr b d)) as [BD|BD].
    - destruct (chain_ear (score a b d) Vd (length (c :: R1)) (c :: R1) b d) as (u & x & y & z & v & E & Q); [lia|discriminate| |exact BD| |].
      + apply (good_sub [a] _ R2). cbn [app] in *. rewrite <- app_assoc. exact GR.
      + intros e I. rewrite <- (score_rot a b d). apply above_edge; [exact BD|]. rewrite incirc_rot. apply LOW. destruct I as [<-|I]; [left; reflexivity|right; apply in_or_app; left; exact I].
      + apply (STOP x y z); [|exact Q]. apply (consec_in L ([a] ++ u) x y z (v ++ R2)).
        replace (([a] ++ u) ++ x :: y :: z :: v ++ R2) with ([a] ++ (b :: (c :: R1) ++ [d]) ++ R2); [cbn [app] in *; rewrite <- app_assoc; exact RL|].
        rewrite E. repeat (rewrite <- ?app_assoc; cbn [app]). reflexivity.
    - assert (DA : 0 < cr d a) by (destruct Gd as [Q _]; unfold CC in Q; lia).
      assert (RL2 : rotl L ((d :: R2 ++ [a]) ++ b :: c :: R1)).
      { eapply rotl_trans; [exact RL|]. exists (a :: b :: c :: R1), (d :: R2). cbn [app]. repeat (rewrite <- ?app_assoc; cbn [app]). auto. }
      destruct R2 as [|r2 R2].
      + apply (STOP d a b); [|rewrite <- (score_rot d a b); apply geq_refl]. apply (consec_in L [] d a b (c :: R1)). exact RL2.
      + destruct (chain_ear (score a b d) Vd (length (r2 :: R2)) (r2 :: R2) d a) as (u & x & y & z & v & E & Q); [lia|discriminate| |exact DA| |].
        * apply (good_sub [] _ (b :: c :: R1)). apply (good_rot _ _ RL2 G).
        * intros e I. rewrite (score_rot d a b). apply above_edge; [exact DA|]. rewrite <- incirc_rot. apply LOW. right. apply in_or_app. right. right. exact I.
        * apply (STOP x y z); [|exact Q]. apply (consec_in L u x y z (v ++ b :: c :: R1)).
          rewrite E in RL2. repeat (rewrite <- ?app_assoc in RL2; cbn [app] in RL2). exact RL2.
  Qed.
  Lemma in_rest L a b c R d : rotl L (a :: b :: c :: R) -> In d L -> 0 < incirc a b c d -> In d R.
  Proof.
    intros RL I F. apply (rotl_In _ _ _ RL) in I. destruct I as [<-|[<-|[<-|I]]]; [rewrite incirc_at in F|rewrite inc_b in F|rewrite inc_c in F|exact I]; lia.
  Qed.

  Theorem best_ear L a b c R : rotl L (a :: b :: c :: R) -> good L ->
    (forall x y z, consec L x y z -> geq (score a b c) (score x y z)) -> forall d, In d L -> incirc a b c d <= 0.
  Proof.
    intros RL G BEST d0 I0. destruct (Z_lt_le_dec 0 (incirc a b c d0)) as [F|F]; [exfalso|exact F].
    pose proof (in_rest _ _ _ _ _ _ RL I0 F) as I0R.
    pose proof (good_rot _ _ RL G) as GR. assert (GT : good3 a b c) by (apply (GR [] a [] b [] c R); reflexivity).
    assert (G1 : good3 b c d0) by (apply in_split in I0R; destruct I0R as (R1 & R2 & ->); apply (GR [a] b [] c R1 d0 R2); reflexivity).
    assert (G2 : good3 a b d0) by (apply in_split in I0R; destruct I0R as (R1 & R2 & ->); apply (GR [] a [] b (c :: R1) d0 R2); reflexivity).
    assert (STOP : forall g x y z, valid g -> gt g (score a b c) -> consec L x y z -> geq (score x y z) g -> False).
    { intros g x y z Vg Gg Cg H. pose proof (BEST x y z Cg) as B. pose proof (good3_valid _ _ _ (consec_good _ _ _ _ G Cg)) as Vx.
      pose proof (geq_gt _ _ _ Vx Vg (good3_valid _ _ _ GT) H Gg) as Q. unfold gt, geq in *. lia. }
    destruct (Z_lt_le_dec 0 (cr b c)) as [BC|BC].
    - destruct (better_bc L a b c R d0 RL G BC I0R) as (x & y & z & C & Q). apply (STOP (score b c d0) x y z); [apply good3_valid, G1| |exact C|exact Q].
      rewrite <- (score_rot a b c). apply in_side_gt; [exact BC|]. rewrite incirc_rot. exact F.
    - assert (AB : 0 < cr a b) by (destruct GT as [Q _]; unfold CC in Q; lia).
      destruct (better_ab L a b c R d0 RL G AB I0R) as (x & y & z & C & Q). apply (STOP (score a b d0) x y z); [apply good3_valid, G2| |exact C|exact Q].
      apply in_side_gt; assumption.
  Qed.

  (** * A triangle that is empty without b is empty with b *)
  Lemma span4 a b c x u v w : I3 a b c * (I3 a b c * incirc u v w x - I3 u v w * incirc a b c x) =
     I3 b c x * (I3 a b c * incirc u v w a) - I3 a c x * (I3 a b c * incirc u v w b) + I3 a b x * (I3 a b c * incirc u v w c).
  Proof. unfold incirc. ring. Qed.
  Lemma side_id a b x u v w : cr a b * incirc u v w x = I3 u v w * orient a b x - orient u v w * I3 a b x + cr x b * incirc u v w a + cr a x * incirc u v w b.
  Proof. unfold incirc, orient. ring. Qed.

  Lemma lin a b u v w : cr a b * I3 u v w = cr v w * I3 a b u + cr w u * I3 a b v + cr u v * I3 a b w.
  Proof. unfold incirc, orient. ring. Qed.
  (** If c lies on the circle through p, a, b. *)
  Lemma on_line a b c y z : I3 a b c = 0 -> cr a b * I3 c y z = cr c b * I3 a y z + cr a c * I3 b y z.
  Proof.
    intros E. assert (H : cr a b * I3 c y z = cr c b * I3 a y z + cr a c * I3 b y z + I3 a b c * cr y z) by (unfold incirc, orient; ring). rewrite H, E. ring.
  Qed.

  Lemma back a b c u v w x : let Q y := good3 a b y /\ good3 b c y /\ good3 a c y /\ incirc a b c y <= 0 in
    good3 a b c -> good3 u v w -> (forall y, y = u \/ y = v \/ y = w -> y = a \/ y = c \/ Q y) -> (x = u \/ x = v \/ x = w) -> Q x ->
    incirc u v w a <= 0 -> incirc u v w c <= 0 -> incirc u v w b <= 0.
  Proof.
    intros Q GT G HU Hx ((C4 & I4) & (C2 & I2) & (C3 & I3') & T) A C.
    assert (X : incirc u v w x = 0) by (destruct Hx as [->|[->| ->]]; [apply incirc_at|apply inc_b|apply inc_c]).
    pose proof (good3_I0 u v w G) as O'. pose proof (good3_I0 _ _ _ GT) as OT. destruct GT as [C1 I1]. destruct G as [C' I'].
    destruct (Z.eq_dec (I3 a b c) 0) as [E|E].
    - specialize (OT E).
      assert (DEG : cr a b <> 0 -> (forall y, Q y -> I3 a b y = 0) -> incirc u v w b <= 0).
      { intros N H. assert (Z : forall y, y = u \/ y = v \/ y = w -> I3 a b y = 0).
        { intros y Hy. destruct (HU y Hy) as [->|[->|K]]; [unfold incirc; ring|exact E|auto]. }
        pose proof (Z u (or_introl eq_refl)) as Zu. pose proof (Z v (or_intror (or_introl eq_refl))) as Zv. pose proof (Z w (or_intror (or_intror eq_refl))) as Zw.
        assert (Z' : I3 u v w = 0). { pose proof (lin a b u v w) as K. rewrite Zu, Zv, Zw in K. nia. }
        specialize (O' Z'). assert (ON : forall y z, I3 a b y = 0 -> I3 a b z = 0 -> I3 y z b = 0).
        { intros y z Hy Hz. pose proof (lin a b y z b) as K. rewrite Hy, Hz in K. assert (I3 a b b = 0) by (unfold incirc; ring). nia. }
        assert (FIN : forall y z t, incirc y z t b = incirc u v w b -> I3 y z t = 0 -> I3 y z b = 0 -> 0 < cr y z -> incirc u v w b <= 0).
        { intros y z t K0 K1 K2 K3. pose proof (side_id y z b y z t) as K. rewrite K1, K2, incirc_at, inc_b, K0 in K. nia. }
        destruct C' as [[P1 P2]|[[P1 P2]|[P1 P2]]].
        - apply (FIN u v w); auto.
        - apply (FIN v w u); auto; rewrite incirc_rot; auto.
        - apply (FIN w u v); auto; rewrite 2 incirc_rot; auto. }
      destruct C1 as [[P1 P2]|[[P1 P2]|[P1 P2]]].
      + destruct (cocircular a b c P1 P2 E) as [P3 _]. pose proof (side_id a c b u v w) as K. rewrite (O_swap23 a b c), (I_swap23 a b c), E in K. nia.
      + assert (P3 : 0 < cr b a) by (apply (cocircular b c a P1 P2); rewrite incirc_rot; exact E).
        apply DEG; [rewrite cr_anti; lia|]. intros y ((_ & K1) & (_ & K2) & _).
        assert (E2 : I3 b a c = 0) by (rewrite incirc_swap; lia). pose proof (on_line b a c y b E2) as K.
        assert (I3 b y b = 0) by (unfold incirc; ring). assert (I3 c y b = I3 b c y) by (unfold incirc; ring). assert (I3 a y b = - I3 a b y) by (unfold incirc; ring). nia.
      + assert (P3 : 0 < cr c b) by (apply (cocircular c a b P1 P2); rewrite 2 incirc_rot; exact E).
        apply DEG; [lia|]. intros y ((_ & K1) & (_ & K2) & _).
        assert (E2 : I3 c b a = 0) by (unfold incirc in *; lia). pose proof (on_line c b a b y E2) as K.
        assert (I3 b b y = 0) by (unfold incirc; ring). assert (I3 c b y = - I3 b c y) by (unfold incirc; ring). nia.
    - destruct (Z.eq_dec (I3 a c x) 0) as [E3|E3].
      + pose proof (good3_I0 a c x (conj C3 I3') E3) as O3. destruct C3 as [[P1 P2]|[[P1 P2]|[P1 P2]]].
        * exfalso. destruct (cocircular a c x P1 P2 E3) as [P3 _].
          assert (E2 : I3 a x c = 0) by (rewrite I_swap23; lia).
          pose proof (on_line a x c a b E2) as K. pose proof (on_line a x c x b E2) as K'.
          assert (I3 a a b = 0) by (unfold incirc; ring). assert (I3 x x b = 0) by (unfold incirc; ring).
          assert (I3 c a b = I3 a b c) by (unfold incirc; ring). assert (I3 x a b = I3 a b x) by (unfold incirc; ring).
          assert (I3 c x b = I3 b c x) by (unfold incirc; ring). assert (I3 a x b = - I3 a b x) by (unfold incirc; ring).
          assert (I3 a b x = 0) by nia. nia.
        * assert (P3 : 0 < cr c a) by (apply (cocircular c x a P1 P2); rewrite incirc_rot; exact E3).
          pose proof (side_id c a x u v w) as K. assert (E4 : I3 c a x = 0) by (rewrite incirc_swap; lia). rewrite X, E4 in K.
          assert (orient c a x = - orient a c x) by (unfold orient; ring).
          assert (M1 : cr x a * incirc u v w c <= 0) by nia. assert (M2 : cr c x * incirc u v w a <= 0) by nia.
          assert (M3 : I3 u v w * orient c a x <= 0) by nia.
          assert (Z1 : I3 u v w = 0) by nia. assert (Z2 : incirc u v w c = 0) by nia. assert (Z3 : incirc u v w a = 0) by nia.
          specialize (O' Z1). pose proof (side_id c a b u v w) as K2. rewrite Z1, Z2, Z3 in K2.
          assert (I3 c a b = I3 a b c) by (unfold incirc; ring). assert (0 < orient u v w * I3 a b c) by nia. nia.
        * exfalso. assert (P3 : 0 < cr x c) by (apply (cocircular x a c P1 P2); rewrite 2 incirc_rot; exact E3).
          assert (E2 : I3 x c a = 0) by (rewrite incirc_swap; replace (I3 c x a) with (I3 a c x) by (unfold incirc; ring); lia).
          pose proof (on_line x c a b c E2) as K. pose proof (on_line x c a b x E2) as K'.
          assert (I3 c b c = 0) by (unfold incirc; ring). assert (I3 x b x = 0) by (unfold incirc; ring).
          assert (I3 x b c = I3 b c x) by (unfold incirc; ring). assert (I3 c b x = - I3 b c x) by (unfold incirc; ring).
          assert (I3 b c x = 0) by nia. nia.
      + pose proof (span4 a b c x u v w) as K. rewrite X in K. assert (0 < I3 a b c) by lia. assert (0 < I3 a c x) by lia.
        set (i := I3 a b c) in *. set (i' := I3 u v w) in *. set (fx := incirc a b c x) in *. set (fa := incirc u v w a) in *. set (fb := incirc u v w b) in *. set (fc := incirc u v w c) in *.
        set (j1 := I3 b c x) in *. set (j2 := I3 a c x) in *. set (j3 := I3 a b x) in *. clearbody i i' fx fa fb fc j1 j2 j3. clear - K H H0 I' T A C I2 I4.
        assert (i * (j2 * fb) = i * (j1 * fa + j3 * fc + i' * fx)) by lia. assert (j2 * fb = j1 * fa + j3 * fc + i' * fx) by nia.
        assert (j1 * fa <= 0) by nia. assert (j3 * fc <= 0) by nia. assert (i' * fx <= 0) by nia. nia.
  Qed.

  (** * Cutting all ears *)
  (** An ear that turns left and has no other corner in its circumcircle, if there is
      an ear that turns left. *)
  Definition best (L : list point) (a b c : point) : Prop :=
    good L -> (exists x y z, consec L x y z /\ 0 < orient x y z) -> 0 < orient a b c /\ forall d, In d L -> incirc a b c d <= 0.

  Inductive earcut : list point -> list (point * point * point) -> Prop :=
  | ec_last a b c : earcut [a; b; c] [(a, b, c)]
  | ec_cut L a b c R L' N : R <> [] -> rotl L (a :: b :: c :: R) -> best L a b c -> rotl (a :: c :: R) L' -> earcut L' N -> earcut L ((a, b, c) :: N).

  Lemma inc_form u v w : exists lx ly, forall x, incirc u v w x = I3 u v w + lx * (px x - px p) + ly * (py x - py p) - orient u v w * n2 x.
  Proof.
    exists (incirc u v w (Pt (px p + 1) (py p)) - I3 u v w + orient u v w), (incirc u v w (Pt (px p) (py p + 1)) - I3 u v w + orient u v w).
    intros x. unfold incirc, orient, n2, d2. cbn [px py]. ring.
  Qed.

  Definition spans (V : list point) : Prop := forall lx ly, (forall v, In v V -> lx * (px v - px p) + ly * (py v - py p) < 0) -> False.
  Lemma spans_pos V u v w : spans V -> good3 u v w -> (forall d, In d V -> incirc u v w d <= 0) -> 0 < orient u v w.
  Proof.
    intros SP G H. destruct (Z_lt_le_dec 0 (orient u v w)) as [Q|Q]; [exact Q|exfalso].
    assert (0 < I3 u v w). { pose proof (good3_I0 _ _ _ G). destruct G as [_ G]. destruct (Z.eq_dec (I3 u v w) 0); [lia|lia]. }
    destruct (inc_form u v w) as (lx & ly & E). apply (SP lx ly). intros d I. specialize (H d I). rewrite E in H. assert (0 <= n2 d) by apply d2_nonneg. nia.
  Qed.

  Definition sub3 (L : list point) (u v w : point) : Prop := exists l1 l2 l3 l4, rotl L (l1 ++ u :: l2 ++ v :: l3 ++ w :: l4).
  Lemma sub3_good L u v w : good L -> sub3 L u v w -> good3 u v w.
  Proof. intros G (l1 & l2 & l3 & l4 & H). eapply (good_rot _ _ H G); reflexivity. Qed.
  Lemma sub3_rot L M u v w : rotl L M -> sub3 M u v w -> sub3 L u v w.
  Proof. intros R (l1 & l2 & l3 & l4 & H). exists l1, l2, l3, l4. eapply rotl_trans; eauto. Qed.
  Lemma consec_sub3 L x y z : consec L x y z -> sub3 L x y z.
  Proof. intros (R & H). exists [], [], [], R. exact H. Qed.
  Lemma sub3_In L u v w : sub3 L u v w -> In u L /\ In v L /\ In w L.
  Proof. intros (l1 & l2 & l3 & l4 & H). rewrite 3 (rotl_In _ _ _ H). repeat (rewrite ?in_app_iff; cbn [In]). tauto. Qed.
  Lemma ins3 (m1 m2 : list point) b u v w : (exists l1 l2 l3 l4, m1 ++ m2 = l1 ++ u :: l2 ++ v :: l3 ++ w :: l4) ->
    exists l1 l2 l3 l4, m1 ++ b :: m2 = l1 ++ u :: l2 ++ v :: l3 ++ w :: l4.
  Proof.
    intros (l1 & l2 & l3 & l4 & E).
    destruct (app_split _ _ _ _ E) as [(m & -> & E1)|(m & -> & E1)].
    { exists (m1 ++ b :: m), l2, l3, l4. rewrite E1. rewrite <- app_assoc. reflexivity. }
    destruct m as [|h m].
    { cbn in E1. exists (l1 ++ [b]), l2, l3, l4. rewrite app_nil_r. rewrite <- E1, <- app_assoc. reflexivity. }
    cbn in E1. injection E1 as <- E1. symmetry in E1.
    destruct (app_split _ _ _ _ E1) as [(m' & -> & E2)|(m' & -> & E2)].
    { exists l1, (m ++ b :: m'), l3, l4. rewrite E2. repeat (rewrite <- ?app_assoc; cbn [app]). reflexivity. }
    destruct m' as [|h m'].
    { cbn in E2. exists l1, (l2 ++ [b]), l3, l4. rewrite <- E2, app_nil_r. repeat (rewrite <- ?app_assoc; cbn [app]). reflexivity. }
    cbn in E2. injection E2 as <- E2. symmetry in E2.
    destruct (app_split _ _ _ _ E2) as [(m2' & -> & E3)|(m2' & -> & E3)].
    { exists l1, l2, (m' ++ b :: m2'), l4. rewrite E3. repeat (rewrite <- ?app_assoc; cbn [app]). reflexivity. }
    destruct m2' as [|h m2'].
    { cbn in E3. exists l1, l2, (l3 ++ [b]), l4. rewrite <- E3, app_nil_r. repeat (rewrite <- ?app_assoc; cbn [app]). reflexivity. }
    cbn in E3. injection E3 as <- E3. exists l1, l2, l3, (m2' ++ b :: m2). repeat (rewrite <- ?app_assoc; cbn [app]). reflexivity.
  Qed.
  Lemma sub3_cut a b c R u v w : sub3 (a :: c :: R) u v w -> sub3 (a :: b :: c :: R) u v w.
  Proof.
    intros (l1 & l2 & l3 & l4 & x & y & E & E2).
    assert (exists m1 m2, y ++ x = m1 ++ m2 /\ rotl (a :: b :: c :: R) (m1 ++ b :: m2)) as (m1 & m2 & EM & RM).
    { destruct x as [|h x].
      - cbn in E. exists [a], (c :: R). split; [rewrite app_nil_r; symmetry; exact E|apply rotl_refl].
      - cbn in E. injection E as <- E. exists (y ++ [a]), x. split; [rewrite <- app_assoc; reflexivity|].
        rewrite E. exists (a :: b :: x), y. split; [reflexivity|]. repeat (rewrite <- ?app_assoc; cbn [app]). reflexivity. }
    destruct (ins3 m1 m2 b u v w) as (k1 & k2 & k3 & k4 & K); [rewrite <- EM; exists l1, l2, l3, l4; auto|].
    exists k1, k2, k3, k4. rewrite <- K. exact RM.
  Qed.
  Lemma good3_distinct u v w : good3 u v w -> u <> v /\ v <> w /\ w <> u.
  Proof.
    intros [C _]. unfold CC in C. assert (Z : forall x, cr x x = 0) by (intros; unfold orient; ring).
    repeat split; intros ->; rewrite ?Z in C; [pose proof (cr_anti v w)|pose proof (cr_anti u w)|pose proof (cr_anti u v)]; lia.
  Qed.

  (** Empty among the current polygon is empty among all link vertices. *)
  Definition lifts (V L : list point) : Prop := forall u v w, sub3 L u v w -> (forall d, In d L -> incirc u v w d <= 0) -> forall d, In d V -> incirc u v w d <= 0.
  Lemma lifts_cut V a b c R : good (a :: b :: c :: R) -> (forall d, In d (a :: b :: c :: R) -> incirc a b c d <= 0) ->
    lifts V (a :: b :: c :: R) -> lifts V (a :: c :: R).
  Proof.
    intros G HT HL u v w S3 H. apply HL; [apply sub3_cut, S3|]. assert (Hb : incirc u v w b <= 0).
    2: { intros d [<-|[<-|I]]; [apply H; left; reflexivity|exact Hb|apply H; right; exact I]. }
    pose proof (sub3_good _ _ _ _ G (sub3_cut _ b _ _ _ _ _ S3)) as G3. destruct (sub3_In _ _ _ _ S3) as (Iu & Iv & Iw).
    pose proof (good3_distinct _ _ _ G3) as (D1 & D2 & D3).
    assert (QR : forall y, In y R -> good3 a b y /\ good3 b c y /\ good3 a c y /\ incirc a b c y <= 0).
    { intros y I. split; [|split; [|split; [|apply HT; right; right; right; exact I]]]; apply in_split in I; destruct I as (r1 & r2 & ->).
      - apply (G [] a [] b (c :: r1) y r2). reflexivity.
      - apply (G [a] b [] c r1 y r2). reflexivity.
      - apply (G [] a [b] c r1 y r2). reflexivity. }
    assert (HU : forall y, y = u \/ y = v \/ y = w -> y = a \/ y = c \/ In y R).
    { intros y Hy. assert (I : In y (a :: c :: R)) by (destruct Hy as [->|[->| ->]]; assumption). destruct I as [<-|[<-|I]]; auto. }
    assert (exists x, (x = u \/ x = v \/ x = w) /\ In x R) as (x & Hx & Ix).
    { pose proof (HU u (or_introl eq_refl)) as Hu. pose proof (HU v (or_intror (or_introl eq_refl))) as Hv. pose proof (HU w (or_intror (or_intror eq_refl))) as Hw.
      destruct Hu as [Hu|[Hu|Hu]]; [| |exists u; tauto]; destruct Hv as [Hv|[Hv|Hv]]; try (exists v; tauto); destruct Hw as [Hw|[Hw|Hw]]; try (exists w; tauto); congruence. }
    apply (back a b c u v w x); [apply (G [] a [] b [] c R); reflexivity|exact G3| |exact Hx|apply QR, Ix|apply H; left; reflexivity|apply H; right; left; reflexivity].
    intros y Hy. destruct (HU y Hy) as [->|[->|I]]; auto.
  Qed.
  Lemma lifts_rot V L M : rotl L M -> lifts V L -> lifts V M.
  Proof. intros R H u v w S3 E. apply H; [eapply sub3_rot; eauto|]. intros d I. apply E. apply (rotl_In _ _ _ R), I. Qed.

  Definition rots (L : list point) : list (list point) := map (fun i => skipn i L ++ firstn i L) (seq 0 (S (length L))).
  Lemma rots_spec L M : In M (rots L) <-> rotl L M.
  Proof.
    unfold rots. rewrite in_map_iff. split.
    - intros (i & <- & _). exists (firstn i L), (skipn i L). split; [symmetry; apply firstn_skipn|reflexivity].
    - intros (u & v & -> & ->). exists (length u). split; [|apply in_seq; rewrite app_length; lia].
      rewrite skipn_app, firstn_app, Nat.sub_diag, skipn_all, firstn_all. cbn [skipn firstn app]. rewrite app_nil_r. reflexivity.
  Qed.
  Definition score1 (M : list point) : Z * Z := match M with x :: y :: z :: _ => score x y z | _ => (1, 0) end.
  Lemma score1_valid L M : good L -> rotl L M -> valid (score1 M).
  Proof.
    intros G R. destruct M as [|x [|y [|z M]]]; cbn [score1]; try (right; cbn; lia). apply good3_valid. apply (good_rot _ _ R G [] x [] y [] z M). reflexivity.
  Qed.

  Lemma some_left V L : good L -> spans V -> lifts V L -> (3 <= length L)%nat -> exists x y z, consec L x y z /\ 0 < orient x y z.
  Proof.
    intros G SP HL Len. destruct (arg_best score1 geq (rots L)) as (M & IM & HM).
    { apply geq_or. } { intros x y z X Y W. apply geq_trans; apply (score1_valid L); try exact G; apply rots_spec; assumption. }
    { unfold rots. cbn. discriminate. }
    apply rots_spec in IM. pose proof (rotl_length _ _ IM) as LM. destruct M as [|x [|y [|z M]]]; cbn [length] in LM; try lia.
    assert (CM : consec L x y z) by (exists M; exact IM). exists x, y, z. split; [exact CM|]. apply (spans_pos V); [exact SP|apply (consec_good _ _ _ _ G CM)|].
    apply HL; [apply consec_sub3, CM|]. apply (best_ear L x y z M IM G). intros x' y' z' (R' & H'). apply rots_spec in H'. apply (HM _ H').
  Qed.

  Theorem earcut_ok V L N : earcut L N -> good L -> spans V -> lifts V L -> (3 <= length L)%nat ->
    forall a b c, In (a, b, c) N -> 0 < orient a b c /\ 0 <= I3 a b c /\ (forall d, In d V -> incirc a b c d <= 0) /\ In a L /\ In b L /\ In c L.
  Proof.
    intros E. induction E as [a b c|L a b c R L' N NE RL B RL' E IH]; intros G SP HL Len x y z I.
    - destruct I as [[= <- <- <-]|[]]. assert (C : consec [a; b; c] a b c) by (exists []; apply rotl_refl).
      pose proof (consec_good _ _ _ _ G C) as G3. assert (H : forall d, In d V -> incirc a b c d <= 0).
      { apply HL; [apply consec_sub3, C|]. intros d [<-|[<-|[<-|[]]]]; [rewrite incirc_at|rewrite inc_b|rewrite inc_c]; lia. }
      split; [apply (spans_pos V); assumption|]. split; [apply G3|]. split; [exact H|]. cbn [In]. tauto.
    - assert (C : consec L a b c) by (exists R; exact RL). destruct (B G (some_left V L G SP HL Len)) as [O1 HT].
      pose proof (consec_good _ _ _ _ G C) as G3.
      destruct I as [[= <- <- <-]|I].
      + split; [exact O1|]. split; [apply G3|]. split; [apply HL; [apply consec_sub3, C|exact HT]|]. apply (sub3_In L), consec_sub3, C.
      + assert (HL' : lifts V (a :: c :: R)).
        { apply (lifts_cut V a b c R); [eapply good_rot; eauto| |eapply lifts_rot; eauto]. intros d Id. apply HT. apply (rotl_In _ _ _ RL), Id. }
        assert (SUB : forall d, In d L' -> In d L). { intros d Id. apply (rotl_In _ _ _ RL') in Id. apply (rotl_In _ _ _ RL). destruct Id as [<-|Id]; [left; reflexivity|right; right; exact Id]. }
        destruct (IH) with (a := x) (b := y) (c := z) as (K1 & K2 & K3 & K4 & K5 & K6); try assumption.
        * eapply good_rot; [exact RL'|]. apply (good_drop [a] b (c :: R)). eapply good_rot; eauto.
        * eapply lifts_rot; eauto.
        * rewrite <- (rotl_length _ _ RL'). cbn. destruct R; [congruence|cbn; lia].
        * auto 10.
  Qed.

  Lemma earcut_used L N v : earcut L N -> In v L -> exists a b c, In (a, b, c) N /\ (v = a \/ v = b \/ v = c).
  Proof.
    intros E. induction E as [a b c|L a b c R L' N NE RL B RL' E IH]; intros I.
    - exists a, b, c. split; [left; reflexivity|]. destruct I as [<-|[<-|[<-|[]]]]; auto.
    - apply (rotl_In _ _ _ RL) in I. destruct (in_dec point_eq_dec v (a :: c :: R)) as [J|J].
      + destruct IH as (x & y & z & K1 & K2); [apply (rotl_In _ _ _ RL'), J|]. exists x, y, z. split; [right; exact K1|exact K2].
      + exists a, b, c. split; [left; reflexivity|]. destruct I as [<-|[<-|[<-|I]]]; auto. exfalso. apply J. right. right. exact I.
  Qed.

  (** * The boundary *)
  Fixpoint path (a : point) (R : list point) (e : point) : list (point * point) :=
    match R with [] => [(a, e)] | b :: R' => (a, b) :: path b R' e end.
  Definition cyc (L : list point) : list (point * point) := match L with [] => [] | a :: R => path a R a end.
  Lemma path_snoc a R x e : path a (R ++ [x]) e = path a R x ++ [(x, e)].
  Proof. revert a. induction R as [|b R IH]; intros a; [reflexivity|]. cbn [path app]. rewrite IH. reflexivity. Qed.
  Lemma cyc_rot1 a R : Permutation (cyc (a :: R)) (cyc (R ++ [a])).
  Proof. destruct R as [|b R]; [reflexivity|]. cbn [cyc path app]. rewrite path_snoc. apply Permutation_cons_append. Qed.
  Lemma cyc_rot L M : rotl L M -> Permutation (cyc L) (cyc M).
  Proof.
    intros (u & v & -> & ->). revert v. induction u as [|a u IH]; intros v; [rewrite app_nil_r; reflexivity|].
    cbn [app]. rewrite cyc_rot1, <- app_assoc, IH, <- app_assoc. reflexivity.
  Qed.
  Definition enet (E : list (point * point)) (a b : point) : Z := count (edge_eqb (a, b)) E - count (edge_eqb (b, a)) E.
  Lemma count_perm {A} (f : A -> bool) l l' : Permutation l l' -> count f l = count f l'.
  Proof.
    unfold count. intros H. f_equal. induction H as [|x l l' H IH|x y l|l l' l'' H IH H' IH']; cbn [filter]; try congruence.
    - destruct (f x); cbn [length]; congruence.
    - destruct (f x), (f y); reflexivity.
  Qed.
  Lemma enet_perm E E' a b : Permutation E E' -> enet E a b = enet E' a b.
  Proof. intros H. unfold enet. rewrite !(count_perm _ _ _ H). reflexivity. Qed.
  Lemma enet_cons e E a b : enet (e :: E) a b = enet [e] a b + enet E a b.
  Proof. unfold enet, count. cbn [filter]. destruct (edge_eqb (a, b) e), (edge_eqb (b, a) e); cbn [length]; lia. Qed.
  Lemma enet_flip x y a b : enet [(y, x)] a b = - enet [(x, y)] a b.
  Proof.
    unfold enet, count. cbn [filter]. unfold edge_eqb. cbn [fst snd].
    destruct (point_eqb a y), (point_eqb b x), (point_eqb a x), (point_eqb b y); cbn; lia.
  Qed.
  Lemma enet_app E E' a b : enet (E ++ E') a b = enet E a b + enet E' a b.
  Proof. induction E as [|e E IH]; [unfold enet at 2; cbn; lia|]. cbn [app]. rewrite enet_cons, IH, (enet_cons e E). lia. Qed.
  Definition tri3 (t : point * point * point) : tri := let '(a, b, c) := t in Tri a b c.
  Lemma earcut_net L N a b : earcut L N -> net (map tri3 N) a b = enet (cyc L) a b.
  Proof.
    intros E. unfold net. fold (enet (flat_map tedges (map tri3 N)) a b). induction E as [x y z|L x y z R L' N NE RL B RL' E IH].
    - reflexivity.
    - cbn [map flat_map]. rewrite enet_app, IH. rewrite <- (enet_perm _ _ a b (cyc_rot _ _ RL')), (enet_perm _ _ a b (cyc_rot _ _ RL)).
      cbn [cyc path tri3]. unfold tedges. cbn [ta tb tc]. rewrite !(enet_cons _ (_ :: _)), (enet_cons (x, z) (path z R x)), (enet_cons (y, z) (path z R x)), (enet_flip x z). lia.
  Qed.
End Ear.
