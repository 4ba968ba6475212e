(** The order of the vertices of a cell (C84). *)
From Coq Require Import ZArith Reals List Bool Arith Lia Lra Psatz Permutation.
From Flocq Require Import Core Plus_error IEEE754.BinarySingleNaN.
From Verif Require Import GoNum FloatLemmas M_Norm M_Slice M_Geom S_Geom M_Image M_Raster S_Raster M_Delaunay S_Delaunay M_Voronoi S_Voronoi S_Corner S_Order L_Geom L_Voronoi L_Corner L_SliceSort.
Import ListNotations.

(** * Insertion sort sorts *)
Section Sort.
Context {A : Type} (less : A -> A -> option bool).
Definition below (x y : A) : Prop := less x y = Some true.
Fixpoint desc (l : list A) : Prop := match l with [] => True | x :: t => Forall (fun y => below y x) t /\ desc t end.
Lemma insert_back_desc all x acc r : strict_order less all -> In x all -> incl acc all -> ~ In x acc -> desc acc -> insert_back less x acc = Some r -> desc r.
Proof.
  intros SO Ix. revert r. induction acc as [|y t IH]; intros r IN NI D; cbn [insert_back].
  - intros [= <-]. cbn. auto.
  - destruct D as [D1 D2]. assert (Iy : In y all) by (apply IN; left; reflexivity). assert (N : x <> y) by (intros ->; apply NI; left; reflexivity).
    assert (IN' : incl t all) by (intros z Iz; apply IN; right; exact Iz). assert (NI' : ~ In x t) by (intros I; apply NI; right; exact I).
    destruct (less x y) as [[|]|] eqn:E; [| |discriminate].
    + destruct (insert_back less x t) as [r'|] eqn:Er; [|discriminate]. intros [= <-]. cbn [desc]. split; [|apply IH; auto].
      eapply Permutation_Forall; [exact (insert_back_perm _ _ _ _ Er)|]. constructor; [exact E|exact D1].
    + intros [= <-]. assert (B : below y x) by (destruct (st_total _ _ SO x y Ix Iy N) as [[C _]|[_ C]]; [congruence|exact C]). cbn [desc]. split; [|auto].
      constructor; [exact B|]. rewrite Forall_forall in *. intros z Iz. assert (Nz : z <> x) by (intros ->; auto). apply (st_trans _ _ SO z y x); auto. apply D1, Iz.
Qed.
Lemma fold_desc all rest : forall acc r, strict_order less all -> Permutation (rest ++ acc) all -> desc acc -> foldM (fun acc x => insert_back less x acc) rest acc = Some r -> desc r.
Proof.
  induction rest as [|x rest IH]; intros acc r SO P D; cbn [foldM]; [intros [= <-]; exact D|].
  destruct (insert_back less x acc) as [acc'|] eqn:E; [|discriminate]. apply IH; [exact SO| |].
  - rewrite <- P. cbn [app]. rewrite Permutation_middle. apply Permutation_app_head. symmetry. apply (insert_back_perm _ _ _ _ E).
  - assert (ND : NoDup (x :: rest ++ acc)) by (eapply Permutation_NoDup; [apply Permutation_sym, P|exact (st_nodup _ _ SO)]). inversion ND as [|? ? NI ND']; subst.
    apply (insert_back_desc all x acc acc' SO); auto.
    + eapply Permutation_in; [exact P|left; reflexivity].
    + intros z Iz. eapply Permutation_in; [exact P|]. right. apply in_or_app. right. exact Iz.
    + intros I. apply NI, in_or_app. right. exact I.
Qed.
Lemma desc_nth l : desc l -> forall i j x y, (i < j)%nat -> nth_error l i = Some x -> nth_error l j = Some y -> below y x.
Proof.
  induction l as [|z t IH]; intros D i j x y L Ei Ej; [destruct i; discriminate|]. destruct D as [D1 D2]. destruct j as [|j]; [lia|]. cbn [nth_error] in Ej.
  destruct i as [|i]; cbn [nth_error] in Ei; [injection Ei as <-; rewrite Forall_forall in D1; apply D1; eapply nth_error_In; exact Ej|]. apply (IH D2 i j); auto. lia.
Qed.
End Sort.
Lemma nth_error_rev {A} (l : list A) i x : nth_error (rev l) i = Some x -> (i < length l)%nat /\ nth_error l (length l - 1 - i) = Some x.
Proof.
  intros E. assert (L : (i < length l)%nat) by (rewrite <- rev_length; apply nth_error_Some; congruence). split; [exact L|].
  rewrite (nth_error_nth' _ x) in E by (rewrite rev_length; lia). rewrite rev_nth in E by lia. injection E as E.
  rewrite (nth_error_nth' _ x) by lia. f_equal. rewrite <- E at 2. f_equal. lia.
Qed.
Theorem slice_sort_sorts : sorts slice_sort.
Proof.
  intros less l l' SO E i j x y L Ei Ej. unfold slice_sort in E. destruct (foldM _ l []) as [r|] eqn:F; [|discriminate]. cbn [option_map] in E. injection E as <-.
  apply nth_error_rev in Ei as [Li Ei], Ej as [Lj Ej]. pose proof (fold_desc less l l [] r SO ltac:(rewrite app_nil_r; reflexivity) I F) as D.
  apply (desc_nth less r D (length r - 1 - j) (length r - 1 - i)); auto. lia.
Qed.

(** * Geometry *)
Open Scope R_scope.
Lemma before_trans c x y z : before c x y -> before c y z -> before c x z.
Proof.
  unfold before, cross. generalize (dx c x) (dy c x) (dx c y) (dy c y) (dx c z) (dy c z). intros ax ay bx by_ cx cy H1 H2.
  assert (ID : bx * (ax * cy - ay * cx) = ax * (bx * cy - by_ * cx) + cx * (ax * by_ - ay * bx)) by ring.
  destruct H1 as [[A B]|[[[[A B]|[A B]] P]|(A & B & P & Q)]].
  - left. split; [exact A|]. destruct H2 as [[C D]|[[[[C D]|[C D]] P2]|(C & D & _)]]; lra.
  - destruct H2 as [[C D]|[[[[C D]|[C D]] P2]|(C & D & _)]]; [left; lra| |lra|lra]. right. left. split; [left; lra|].
    assert (ax * (bx * cy - by_ * cx) < 0) by nra. assert (cx * (ax * by_ - ay * bx) < 0) by nra. assert (bx * (ax * cy - ay * cx) < 0) by lra. nra.
  - destruct H2 as [[C D]|[[[[C D]|[C D]] P2]|(C & D & P2 & Q2)]]; [lra|lra| |].
    + destruct (Rle_lt_or_eq_dec _ _ B) as [Bp|Bz].
      * assert (K1 : 0 <= ax * (bx * cy - by_ * cx)) by (apply Rmult_le_pos; lra). assert (K2 : 0 <= cx * (ax * by_ - ay * bx)) by (apply Rmult_le_pos; lra).
        destruct (Rle_lt_or_eq_dec _ _ A) as [Ap|Az].
        -- right. left. split; [right; lra|]. assert (0 < ax * (bx * cy - by_ * cx)) by (apply Rmult_lt_0_compat; lra). assert (0 < bx * (ax * cy - ay * cx)) by lra. nra.
        -- destruct (Rle_lt_or_eq_dec _ _ D) as [Dp|Dz].
           ++ right. left. split; [right; lra|]. assert (0 < cx * (ax * by_ - ay * bx)) by (apply Rmult_lt_0_compat; lra). assert (0 < bx * (ax * cy - ay * cx)) by lra. nra.
           ++ right. right. subst ax cx. repeat split; nra.
      * exfalso. subst bx. assert (0 < ax * by_) by lra. assert (0 < by_) by nra. nra.
    + exfalso. subst bx. nra.
  - destruct H2 as [[C D]|[[[[C D]|[C D]] P2]|(C & D & P2 & Q2)]]; [lra|lra| |lra]. exfalso. subst bx. nra.
Qed.
Lemma before_irrefl c x : ~ before c x x.
Proof. unfold before, cross. intros [[A B]|[[_ P]|(_ & _ & P & Q)]]; nra. Qed.
Lemma before_asym c x y : before c x y -> ~ before c y x.
Proof. intros A B. exact (before_irrefl c x (before_trans _ _ _ _ A B)). Qed.

Lemma left_cross c a b v : left_of a b v = cross c a b - cross c v b - cross c a v.
Proof. unfold left_of, cross, dx, dy. ring. Qed.
Lemma dx_shift c v w : dx v w = dx c w - dx c v. Proof. unfold dx. ring. Qed.
Lemma dy_shift c v w : dy v w = dy c w - dy c v. Proof. unfold dy. ring. Qed.

Section Convex.
Context (c : fpoint) (l : list fpoint) (O : in_order c l) (SU : surrounded c l) (CP : convex_position l).
(** Where a vertex is, relative to a side. *)
Lemma side_cases j a b v : side_at l j a b -> In v l -> v = a \/ v = b \/ (before c a b /\ (before c v a \/ before c b v)) \/ (before c b v /\ before c v a).
Proof.
  intros [Ea Eb] I. apply In_nth_error in I as [k Ek]. assert (Lj : (j < length l)%nat) by (apply nth_error_Some; congruence). assert (Lk : (k < length l)%nat) by (apply nth_error_Some; congruence).
  destruct (Nat.eq_dec k j) as [->|N]; [left; congruence|]. destruct (Nat.eq_dec (S j) (length l)) as [W|W].
  - rewrite W, Nat.mod_same in Eb by lia. destruct (Nat.eq_dec k 0) as [->|N0]; [right; left; congruence|]. right. right. right. split; [apply (O 0%nat k)|apply (O k j)]; auto; lia.
  - rewrite Nat.mod_small in Eb by lia. destruct (Nat.eq_dec k (S j)) as [->|N1]; [right; left; congruence|]. right. right. left. split; [apply (O j (S j)); auto|].
    destruct (Nat.lt_ge_cases k j); [left; apply (O k j); auto|right; apply (O (S j) k); auto; lia].
Qed.
Lemma earlier x y : before c x y -> 0 < cross c y x -> dx c x < 0 /\ 0 <= dx c y.
Proof. unfold before, cross. intros [H|[[_ P]|(A & B & _)]] Q; [exact H|lra|]. rewrite A, B in Q. lra. Qed.
Lemma not_centre v : In v l -> dx c v <> 0 \/ dy c v <> 0.
Proof.
  intros I. destruct (Req_dec (dx c v) 0) as [E1|]; [|auto]. destruct (Req_dec (dy c v) 0) as [E2|]; [|auto]. exfalso. destruct (CP v I) as (ux & uy & H).
  destruct (SU 1 0 ltac:(left; lra)) as (w0 & I0 & K0). assert (N0 : w0 <> v) by (intros ->; lra).
  assert (NU : ux <> 0 \/ uy <> 0). { destruct (Req_dec ux 0) as [->|]; [|auto]. destruct (Req_dec uy 0) as [->|]; [|auto]. specialize (H w0 I0 N0). lra. }
  destruct (SU ux uy NU) as (w & Iw & K). destruct (Req_dec (ux * dx c w + uy * dy c w) (ux * dx c v + uy * dy c v)) as [E|E]; [rewrite E1, E2 in E; lra|].
  assert (N : w <> v) by congruence. specialize (H w Iw N). rewrite (dx_shift c), (dy_shift c), E1, E2 in H. lra.
Qed.
(** The height in the direction in which v can be cut off. *)
Lemma height v : In v l -> exists ux uy, 0 < ux * dx c v + uy * dy c v /\ forall w, In w l -> w <> v -> ux * dx c w + uy * dy c w < ux * dx c v + uy * dy c v.
Proof.
  intros I. destruct (CP v I) as (ux & uy & H).
  assert (H' : forall w, In w l -> w <> v -> ux * dx c w + uy * dy c w < ux * dx c v + uy * dy c v) by (intros w Iw N; specialize (H w Iw N); rewrite (dx_shift c), (dy_shift c) in H; lra).
  exists ux, uy. split; [|exact H'].
  destruct (not_centre v I) as [NZ|NZ].
  - assert (NU : ux <> 0 \/ uy <> 0).
    { destruct (Req_dec ux 0) as [->|]; [|auto]. destruct (Req_dec uy 0) as [->|]; [|auto]. exfalso. destruct (SU (- dx c v) 0 ltac:(left; lra)) as (w & Iw & K). assert (w <> v) by (intros ->; nra). specialize (H' w Iw H0). lra. }
    destruct (SU ux uy NU) as (w & Iw & K). destruct (Req_dec (ux * dx c w + uy * dy c w) (ux * dx c v + uy * dy c v)) as [E|E]; [lra|]. assert (N : w <> v) by congruence. specialize (H' w Iw N). lra.
  - assert (NU : ux <> 0 \/ uy <> 0).
    { destruct (Req_dec ux 0) as [->|]; [|auto]. destruct (Req_dec uy 0) as [->|]; [|auto]. exfalso. destruct (SU 0 (- dy c v) ltac:(right; lra)) as (w & Iw & K). assert (w <> v) by (intros ->; nra). specialize (H' w Iw H0). lra. }
    destruct (SU ux uy NU) as (w & Iw & K). destruct (Req_dec (ux * dx c w + uy * dy c w) (ux * dx c v + uy * dy c v)) as [E|E]; [lra|]. assert (N : w <> v) by congruence. specialize (H' w Iw N). lra.
Qed.
Lemma three a b v : dx c v * cross c a b = dx c b * cross c a v + dx c a * cross c v b.
Proof. unfold cross. ring. Qed.
(** A side takes less than half a turn. *)
Lemma side_turns j a b : side_at l j a b -> 0 < cross c a b.
Proof.
  intros S. assert (Ia : In a l) by (eapply nth_error_In; apply S). pose proof (not_centre a Ia) as NZ.
  destruct (SU (- dy c a) (dx c a) ltac:(destruct NZ; [right|left]; lra)) as (v & Iv & K). assert (CV : 0 < cross c a v) by (unfold cross; lra). clear K.
  pose proof (three a b v) as T. destruct (side_cases j a b v S Iv) as [->|[->|[[AB [VA|BV]]|[BV VA]]]]; [unfold cross in CV; lra|exact CV|..].
  - destruct (earlier _ _ VA CV) as [Vx Ax]. destruct AB as [AB|[[_ AB]|(A1 & B1 & A2 & B2)]]; [lra|exact AB|]. exfalso. unfold cross in CV. rewrite A1 in CV. nra.
  - destruct AB as [[Ax Bx]|[[_ AB]|(A1 & B1 & A2 & B2)]]; [|exact AB|].
    + assert (Vx : 0 <= dx c v) by (destruct BV as [?|[[[?|?] _]|?]]; lra). destruct (Rlt_le_dec 0 (cross c a b)) as [|N]; [assumption|]. exfalso.
      assert (K1 : dx c v * cross c a b <= 0) by nra. assert (K2 : 0 <= dx c b * cross c a v) by nra.
      assert (E : cross c v b = - cross c b v) by (unfold cross; ring). destruct BV as [BV|[[_ BV]|(B1 & V1 & B2 & V2)]]; [lra| |].
      * assert (0 < dx c a * cross c v b) by nra. lra.
      * unfold cross in CV. rewrite V1 in CV. nra.
    + exfalso. destruct BV as [BV|[[BV P]|(_ & V1 & B3 & _)]]; [lra| |lra]. unfold cross in P. rewrite B1 in P. assert (0 <= dx c v) by (destruct BV; lra). nra.
  - destruct (earlier _ _ VA CV) as [Vx Ax]. destruct BV as [BV|[[BV P]|(B1 & V1 & _)]]; [lra| |lra]. assert (Bx : dx c b < 0) by (destruct BV; lra).
    assert (E : cross c v b = - cross c b v) by (unfold cross; ring). assert (dx c b * cross c a v < 0) by nra. assert (dx c a * cross c v b <= 0) by nra. assert (dx c v * cross c a b < 0) by lra. nra.
Qed.
(** No vertex is between the directions of neighbours. *)
Lemma none_between j a b v : side_at l j a b -> In v l -> 0 < cross c a v -> 0 < cross c v b -> False.
Proof.
  intros S I A B. pose proof (side_turns j a b S) as T. pose proof (three a b v) as E. destruct (side_cases j a b v S I) as [->|[->|[[AB [VA|BV]]|[BV VA]]]]; [unfold cross in A; lra|unfold cross in B; lra|..].
  - destruct (earlier _ _ VA A) as [Vx Ax]. assert (Bx : 0 <= dx c b) by (destruct AB as [?|[[[?|?] _]|?]]; lra). assert (0 <= dx c b * cross c a v) by nra. assert (0 <= dx c a * cross c v b) by nra. assert (dx c v * cross c a b < 0) by nra. lra.
  - destruct (earlier _ _ BV B) as [Bx Vx]. assert (Ax : dx c a < 0) by (destruct AB as [?|[[[?|?] _]|?]]; lra). assert (dx c b * cross c a v < 0) by nra. assert (dx c a * cross c v b < 0) by nra. assert (0 <= dx c v * cross c a b) by nra. lra.
  - destruct (earlier _ _ VA A) as [Vx Ax]. destruct (earlier _ _ BV B). lra.
Qed.
Theorem order_convex : convex_polygon l.
Proof.
  intros j a b v S I. pose proof (side_turns j a b S) as D. assert (Ia : In a l) by (eapply nth_error_In; apply S). assert (Ib : In b l) by (eapply nth_error_In; apply S).
  destruct (Rle_lt_dec 0 (left_of a b v)) as [|N]; [assumption|]. exfalso. rewrite (left_cross c) in N.
  pose proof (none_between j a b v S I) as NB.
  assert (LIN : forall ux uy, (ux * dx c v + uy * dy c v) * cross c a b = cross c v b * (ux * dx c a + uy * dy c a) + cross c a v * (ux * dx c b + uy * dy c b)) by (intros; unfold cross; ring).
  assert (Nva : v <> a) by (intros ->; unfold cross in N; lra). assert (Nvb : v <> b) by (intros ->; unfold cross in N; lra). assert (Nab : b <> a) by (intros ->; unfold cross in D; lra).
  destruct (Rle_lt_dec (cross c a v) 0) as [TN|TP].
  - destruct (height a Ia) as (ux & uy & P & H). pose proof (H v I Nva) as Hv. pose proof (H b Ib Nab) as Hb. specialize (LIN ux uy).
    set (fa := ux * dx c a + uy * dy c a) in *. set (fb := ux * dx c b + uy * dy c b) in *. set (fv := ux * dx c v + uy * dy c v) in *. clearbody fa fb fv.
    assert (K1 : fv * cross c a b < fa * cross c a b) by nra. assert (K2 : cross c a v * fa <= cross c a v * fb) by nra. assert (0 < fa * (cross c v b + cross c a v - cross c a b)) by (apply Rmult_lt_0_compat; lra). lra.
  - destruct (Rle_lt_dec (cross c v b) 0) as [SN|SP]; [|auto]. destruct (height b Ib) as (ux & uy & P & H). pose proof (H v I Nvb) as Hv. pose proof (H a Ia ltac:(congruence)) as Ha. specialize (LIN ux uy).
    set (fa := ux * dx c a + uy * dy c a) in *. set (fb := ux * dx c b + uy * dy c b) in *. set (fv := ux * dx c v + uy * dy c v) in *. clearbody fa fb fv.
    assert (K1 : fv * cross c a b < fb * cross c a b) by nra. assert (K2 : cross c v b * fb <= cross c v b * fa) by nra. assert (0 < fb * (cross c v b + cross c a v - cross c a b)) by (apply Rmult_lt_0_compat; lra). lra.
Qed.
End Convex.

(** * The comparison *)
Lemma sub_sign x y : fin x -> fin y -> Rabs (R64 x) <= 8192 -> Rabs (R64 y) <= 8192 ->
  fin (fsub x y) /\ (0 <= R64 (fsub x y) <-> 0 <= R64 x - R64 y) /\ (R64 (fsub x y) = 0 <-> R64 x - R64 y = 0).
Proof.
  intros Fx Fy Bx By. destruct (msub x y Fx Fy Bx By) as (F & _ & B). assert (B' : Rabs (R64 x - R64 y) <= bpow radix2 1023) by (eapply Rle_trans; [exact B|]; change 16384 with (bpow radix2 14); apply bpow_le; lia).
  destruct (fsub_R x y Fx Fy B') as [_ E]. split; [exact F|].
  assert (Z : R64 (fsub x y) = 0 <-> R64 x - R64 y = 0).
  { rewrite E. split; intros H; [|rewrite H; apply rnd_0]. destruct (Req_dec (R64 x - R64 y) 0) as [|N]; [assumption|]. exfalso. revert H. unfold Rminus in *.
    apply round_plus_neq_0; auto with typeclass_instances; [apply generic_format_B2R|apply generic_format_opp, generic_format_B2R]. }
  split; [|exact Z]. split; intros H.
  - destruct (Rle_lt_dec 0 (R64 x - R64 y)) as [|N]; [assumption|]. assert (L : rnd (R64 x - R64 y) <= rnd 0) by (apply rnd_le; lra). rewrite rnd_0, <- E in L. assert (R64 (fsub x y) = 0) by lra. apply Z in H0. lra.
  - rewrite E, <- rnd_0. apply rnd_le, H.
Qed.
Lemma around_clear c b a : moderate c -> moderate a -> moderate b -> clear c b a ->
  (before c b a /\ around c b a = Some true) \/ (before c a b /\ around c b a = Some false).
Proof.
  intros (Fc1 & Fc2 & Bc1 & Bc2) (Fa1 & Fa2 & Ba1 & Ba2) (Fb1 & Fb2 & Bb1 & Bb2) CL. unfold around.
  destruct (sub_sign _ _ Fa1 Fc1 Ba1 Bc1) as (Fax & Sax & Zax). destruct (sub_sign _ _ Fa2 Fc2 Ba2 Bc2) as (Fay & Say & Zay). destruct (sub_sign _ _ Fb1 Fc1 Bb1 Bc1) as (Fbx & Sbx & Zbx). destruct (sub_sign _ _ Fb2 Fc2 Bb2 Bc2) as (Fby & Sby & Zby).
  destruct (msub _ _ Fa1 Fc1 Ba1 Bc1) as (_ & Dax & Kax). destruct (msub _ _ Fa2 Fc2 Ba2 Bc2) as (_ & Day & Kay). destruct (msub _ _ Fb1 Fc1 Bb1 Bc1) as (_ & Dbx & Kbx). destruct (msub _ _ Fb2 Fc2 Bb2 Bc2) as (_ & Dby & Kby).
  fold (dx c a) in *. fold (dy c a) in *. fold (dx c b) in *. fold (dy c b) in *.
  destruct (mmul _ _ _ _ Fax Fby Dax Dby Kax Kby) as (F1 & E1 & C1). destruct (mmul _ _ _ _ Fbx Fay Dbx Day Kbx Kay) as (F2 & E2 & C2).
  assert (DET : fin (fsub (fmul (fsub (nx a) (nx c)) (fsub (ny b) (ny c))) (fmul (fsub (nx b) (nx c)) (fsub (ny a) (ny c)))) /\
    Rabs (R64 (fsub (fmul (fsub (nx a) (nx c)) (fsub (ny b) (ny c))) (fmul (fsub (nx b) (nx c)) (fsub (ny a) (ny c)))) - cross c a b) <= / 4194304).
  { set (x := fmul (fsub (nx a) (nx c)) (fsub (ny b) (ny c))) in *. set (y := fmul (fsub (nx b) (nx c)) (fsub (ny a) (ny c))) in *. clearbody x y. unfold cross.
    apply Rabs_le_inv in E1, E2, C1, C2. assert (B : Rabs (R64 x - R64 y) <= bpow radix2 30) by (change (bpow radix2 30) with 1073741824; apply Rabs_le; lra).
    destruct (fsub_R x y F1 F2) as [F E]; [eapply Rle_trans; [exact B|apply bpow_le; lia]|]. split; [exact F|]. rewrite E. pose proof (rnd_err _ 30 ltac:(lia) B) as K. change (bpow radix2 (30 - 54)) with (/ 16777216) in K. apply Rabs_le_inv in K. apply Rabs_le. lra. }
  destruct DET as [Fd Nd]. revert Fd Nd. set (det := fsub (fmul _ _) (fmul _ _)). clearbody det. intros Fd Nd.
  rewrite !fle_R, !flt_R, !feq_R by (assumption || reflexivity). rewrite f0_R. revert Fax Sax Zax Fay Say Zay Fbx Sbx Zbx Fby Sby Zby. clear - CL Nd.
  generalize (R64 (fsub (nx a) (nx c))) (R64 (fsub (ny a) (ny c))) (R64 (fsub (nx b) (nx c))) (R64 (fsub (ny b) (ny c))). intros ax ay bx by_ _ Sax Zax _ Say Zay _ Sbx Zbx _ Sby Zby.
  assert (Anti : cross c b a = - cross c a b) by (unfold cross; ring).
  destruct (Rle_bool_spec 0 ax) as [A|A]; cbn [andb].
  2:{ assert (A' : dx c a < 0) by (destruct (Rle_lt_dec 0 (dx c a)); [tauto || (exfalso; assert (0 <= ax) by tauto; lra)|assumption]).
      rewrite (Rlt_bool_true ax 0) by lra. cbn [andb]. destruct (Rle_bool_spec 0 bx) as [B|B].
      - right. split; [|reflexivity]. left. split; [exact A'|tauto].
      - assert (B' : dx c b < 0) by (destruct (Rle_lt_dec 0 (dx c b)); [exfalso; assert (0 <= bx) by tauto; lra|assumption]). rewrite (Req_bool_false ax) by lra. cbn [andb].
        destruct CL as [CL|[CL|[CL|CL]]]; [lra|lra|lra|]. rewrite Anti, Rabs_Ropp in CL. apply Rabs_le_inv in Nd. unfold before. rewrite Anti. destruct (Rcase_abs (cross c a b)) as [G|G].
        + left. rewrite (Rabs_left _ G) in CL. rewrite Rlt_bool_true by lra. split; [right; left; split; [auto|lra]|reflexivity].
        + right. rewrite (Rabs_right _ G) in CL. rewrite Rlt_bool_false, Rlt_bool_true by lra. split; [right; left; split; [auto|lra]|reflexivity]. }
  assert (A' : 0 <= dx c a) by tauto. rewrite (Rlt_bool_false ax 0) by lra. cbn [andb]. destruct (Rlt_bool_spec bx 0) as [B|B].
  { left. split; [|reflexivity]. left. split; [|exact A']. destruct (Rle_lt_dec 0 (dx c b)); [exfalso; assert (0 <= bx) by tauto; lra|assumption]. }
  assert (B' : 0 <= dx c b) by tauto. destruct CL as [CL|[CL|[CL|CL]]]; [lra|lra| |].
  - destruct CL as (Zb & Za & CL). rewrite (Req_bool_true ax), (Req_bool_true bx) by tauto. cbn [andb]. assert (Ny : forall p q, R64 (ny p) - R64 (ny q) = dy c p - dy c q) by (intros; unfold dy; ring).
    destruct CL as [[Y1 Y2]|[Y1 Y2]].
    + replace (Rle_bool 0 ay) with true by (symmetry; apply Rle_bool_true; apply Say; lra). cbn [orb]. left. rewrite Rlt_bool_true by (pose proof (Ny a b); lra). split; [right; right; auto|reflexivity].
    + replace (Rle_bool 0 by_) with true by (symmetry; apply Rle_bool_true; apply Sby; lra). rewrite orb_true_r. right. rewrite Rlt_bool_false by (pose proof (Ny b a); lra). split; [right; right; auto|reflexivity].
  - replace (Req_bool ax 0 && Req_bool bx 0) with false.
    2:{ symmetry. apply andb_false_iff. destruct (Req_bool_spec ax 0) as [Za|]; [|auto]. destruct (Req_bool_spec bx 0) as [Zb|]; [|auto]. exfalso. apply Zax in Za. apply Zbx in Zb. unfold cross in CL. rewrite Za, Zb in CL.
        rewrite !Rmult_0_l, !Rmult_0_r, Rminus_0_r, Rabs_R0 in CL. lra. }
    rewrite Anti, Rabs_Ropp in CL. apply Rabs_le_inv in Nd. unfold before. rewrite Anti. destruct (Rcase_abs (cross c a b)) as [G|G].
    + left. rewrite (Rabs_left _ G) in CL. rewrite Rlt_bool_true by lra. split; [right; left; split; [auto|lra]|reflexivity].
    + right. rewrite (Rabs_right _ G) in CL. rewrite Rlt_bool_false, Rlt_bool_true by lra. split; [right; left; split; [auto|lra]|reflexivity].
Qed.
Lemma clear_irrefl c a : ~ clear c a a.
Proof. unfold clear, cross. intros [H|[H|[H|H]]]; try lra. replace (dx c a * dy c a - dy c a * dx c a) with 0 in H by ring. rewrite Rabs_R0 in H. lra. Qed.
Lemma around_strict c l less : moderate c -> Forall moderate l -> all_clear c l -> (forall b a r, around c b a = Some r -> less b a = Some r) ->
  strict_order less l /\ (forall x y, In x l -> In y l -> x <> y -> less x y = Some true -> before c x y).
Proof.
  intros Mc F AC LE. rewrite Forall_forall in F.
  assert (CL : forall x y, In x l -> In y l -> x <> y -> clear c x y).
  { intros x y Ix Iy N. apply In_nth_error in Ix as [i Ei], Iy as [j Ej]. apply (AC i j); auto. congruence. }
  assert (DEC : forall x y, In x l -> In y l -> x <> y -> (before c x y /\ less x y = Some true) \/ (before c y x /\ less x y = Some false)).
  { intros x y Ix Iy N. destruct (around_clear c x y Mc (F y Iy) (F x Ix) (CL x y Ix Iy N)) as [[A B]|[A B]]; [left|right]; split; auto. }
  split.
  - constructor.
    + apply NoDup_nth_error. intros i j Li E. destruct (Nat.eq_dec i j) as [|N]; [assumption|exfalso]. destruct (nth_error l i) as [x|] eqn:Ei; [|apply nth_error_None in Ei; lia].
      exact (clear_irrefl c x (AC i j x x N Ei (eq_sym E))).
    + intros x y Ix Iy N. destruct (DEC x y Ix Iy N) as [[A B]|[A B]], (DEC y x Iy Ix ltac:(congruence)) as [[A' B']|[A' B']]; auto; exfalso; exact (before_asym _ _ _ A A').
    + intros x y z Ix Iy Iz N L1 L2.
      assert (NE : forall u v, In u l -> In v l -> less u v = Some true -> u <> v -> before c u v) by (intros u v Iu Iv Lu Nu; destruct (DEC u v Iu Iv Nu) as [[A _]|[_ B]]; [exact A|congruence]).
      destruct (DEC x z Ix Iz N) as [[_ B]|[A _]]; [exact B|exfalso].
      assert (D : forall u v : fpoint, In u l -> In v l -> u = v \/ u <> v).
      { intros u v _ _. apply Classical_Prop.classic. }
      destruct (D x y Ix Iy) as [<-|N1].
      * pose proof (NE x z Ix Iz L2 N) as B. exact (before_asym _ _ _ A B).
      * destruct (D y z Iy Iz) as [->|N2]; [pose proof (NE x z Ix Iz L1 N) as B; exact (before_asym _ _ _ A B)|].
        exact (before_asym _ _ _ A (before_trans _ _ _ _ (NE x y Ix Iy L1 N1) (NE y z Iy Iz L2 N2))).
  - intros x y Ix Iy N L. destruct (DEC x y Ix Iy N) as [[A _]|[_ B]]; [exact A|congruence].
Qed.
Lemma clear_perm c l l' : Permutation l l' -> all_clear c l' -> all_clear c l.
Proof.
  intros P AC. assert (ND : NoDup l').
  { apply NoDup_nth_error. intros i j Li E. destruct (Nat.eq_dec i j) as [|N]; [assumption|exfalso]. destruct (nth_error l' i) as [x|] eqn:Ei; [|apply nth_error_None in Ei; lia]. exact (clear_irrefl c x (AC i j x x N Ei (eq_sym E))). }
  assert (ND' : NoDup l) by (eapply Permutation_NoDup; [apply Permutation_sym, P|exact ND]).
  intros i j a b N Ea Eb. assert (Nab : a <> b). { intros ->. apply N. apply (proj1 (NoDup_nth_error l) ND'); [apply nth_error_Some; congruence|congruence]. }
  assert (Ia : In a l') by (eapply Permutation_in; [exact P|eapply nth_error_In; exact Ea]). assert (Ib : In b l') by (eapply Permutation_in; [exact P|eapply nth_error_In; exact Eb]).
  apply In_nth_error in Ia as [i' Ea'], Ib as [j' Eb']. apply (AC i' j'); auto. congruence.
Qed.
Lemma sort_order srt c l l' less : sorter_ok srt -> sorts srt -> moderate c -> Forall moderate l' -> (forall b a r, around c b a = Some r -> less b a = Some r) ->
  srt less l = Some l' -> all_clear c l' -> in_order c l'.
Proof.
  intros SO ST Mc F LE E AC. pose proof (so_perm _ SO _ _ _ E) as P. pose proof (clear_perm _ _ _ P AC) as AC'. assert (F' : Forall moderate l) by (eapply Permutation_Forall; [apply Permutation_sym, P|exact F]).
  destruct (around_strict c l less Mc F' AC' LE) as [SS B]. intros i j a b L Ea Eb. apply B.
  - eapply Permutation_in; [apply Permutation_sym, P|eapply nth_error_In; exact Ea].
  - eapply Permutation_in; [apply Permutation_sym, P|eapply nth_error_In; exact Eb].
  - intros ->. exact (clear_irrefl c b (AC i j b b ltac:(lia) Ea Eb)).
  - exact (ST less l l' SS E i j a b L Ea Eb).
Qed.

(** * The mean *)
Fixpoint rsum (xs : list f64) : R := match xs with [] => 0 | x :: t => R64 x + rsum t end.
Lemma sum_fold (K : nat) xs : forall s S (k : nat), (k + length xs <= K)%nat -> (Z.of_nat K <= 1048576)%Z -> Forall (fun x => fin x /\ Rabs (R64 x) <= 2048) xs -> fin s -> Rabs (R64 s - S) <= INR k * / 4194304 -> Rabs S <= INR k * 2048 ->
  fin (fold_left fadd xs s) /\ Rabs (R64 (fold_left fadd xs s) - (S + rsum xs)) <= INR (k + length xs) * / 4194304 /\ Rabs (S + rsum xs) <= INR (k + length xs) * 2048.
Proof.
  induction xs as [|x xs IH]; intros s S k LK KB F Fs D B; cbn [fold_left rsum length].
  - rewrite Nat.add_0_r, Rplus_0_r. auto.
  - inversion F as [|? ? [Fx Bx] F']; subst. cbn [length] in LK.
    assert (HK : INR k <= 1048575) by (rewrite INR_IZR_INZ; apply IZR_le; lia). pose proof (pos_INR k) as H0.
    apply Rabs_le_inv in D, B. pose proof (Rabs_le_inv _ _ Bx) as Bx'.
    assert (BB : Rabs (R64 s + R64 x) <= bpow radix2 32) by (change (bpow radix2 32) with 4294967296; apply Rabs_le; nra).
    destruct (fadd_R s x Fs Fx) as [Fa Ea]; [eapply Rle_trans; [exact BB|apply bpow_le; lia]|]. pose proof (rnd_err _ 32 ltac:(lia) BB) as E. change (bpow radix2 (32 - 54)) with (/ 4194304) in E. rewrite <- Ea in E. apply Rabs_le_inv in E.
    destruct (IH (fadd s x) (S + R64 x) (Datatypes.S k)) as (G1 & G2 & G3); auto; try lia.
    + rewrite S_INR. apply Rabs_le. lra.
    + rewrite S_INR. apply Rabs_le. lra.
    + replace (k + Datatypes.S (length xs))%nat with (Datatypes.S k + length xs)%nat by lia. rewrite <- Rplus_assoc. auto.
Qed.
Lemma mean_coord xs : xs <> [] -> (Z.of_nat (length xs) <= 1048576)%Z -> Forall (fun x => fin x /\ Rabs (R64 x) <= 2048) xs ->
  let m := fdiv (fold_left fadd xs f0) (f64_of_Z (Z.of_nat (length xs))) in fin m /\ Rabs (R64 m - rsum xs / INR (length xs)) <= / 2097152 /\ Rabs (R64 m) <= 8192.
Proof.
  intros NE L F m. destruct (sum_fold (length xs) xs f0 0 0 ltac:(lia) L F eq_refl) as (Fs & D & B).
  { rewrite f0_R, Rminus_0_r, Rabs_R0. cbn. lra. } { rewrite Rabs_R0. cbn. lra. }
  cbn [Nat.add] in D, B. rewrite Rplus_0_l in D, B. set (n := length xs) in *. assert (N1 : (1 <= n)%nat) by (unfold n; destruct xs; [congruence|cbn; lia]).
  destruct (of_Z_R (Z.of_nat n) ltac:(lia)) as [Fn En]. rewrite <- INR_IZR_INZ in En. assert (P : 1 <= INR n) by (apply (le_INR 1 n N1)).
  set (s := fold_left fadd xs f0) in *. set (S := rsum xs) in *. apply Rabs_le_inv in D, B.
  assert (Q : forall r, S / INR n = r -> S = r * INR n) by (intros r <-; field; lra). assert (Qs : forall r, R64 s / INR n = r -> R64 s = r * INR n) by (intros r <-; field; lra).
  set (q := S / INR n) in *. set (t := R64 s / INR n) in *. specialize (Q q eq_refl). specialize (Qs t eq_refl).
  assert (Bq : Rabs q <= 2048) by (apply Rabs_le; split; nra). assert (Dt : Rabs (t - q) <= / 4194304) by (apply Rabs_le; split; nra). apply Rabs_le_inv in Bq, Dt.
  assert (Bt : Rabs t <= bpow radix2 12) by (change (bpow radix2 12) with 4096; apply Rabs_le; lra).
  destruct (fdiv_R s (f64_of_Z (Z.of_nat n)) Fs Fn) as [Fm Em]; [rewrite En; lra|rewrite En; fold t; eapply Rle_trans; [exact Bt|apply bpow_le; lia]|]. fold m in Fm, Em. rewrite En in Em. fold t in Em.
  split; [exact Fm|]. pose proof (rnd_err _ 12 ltac:(lia) Bt) as K. rewrite <- Em in K. change (bpow radix2 (12 - 54)) with (/ 4398046511104) in K. apply Rabs_le_inv in K. split; apply Rabs_le; lra.
Qed.
Lemma fold_pair l : forall s, fold_left (fun c p => NP (fadd (nx c) (nx p)) (fadd (ny c) (ny p))) l s = NP (fold_left fadd (map nx l) (nx s)) (fold_left fadd (map ny l) (ny s)).
Proof. induction l as [|p l IH]; intros s; cbn [fold_left map]; [destruct s; reflexivity|]. rewrite IH. reflexivity. Qed.
Lemma rsum_sum f l : rsum (map f l) = sum (fun p => R64 (f p)) l.
Proof. induction l as [|p l IH]; cbn [map rsum sum fold_right]; [reflexivity|]. rewrite IH. reflexivity. Qed.
Lemma sum_perm f l l' : Permutation l l' -> sum f l = sum f l'.
Proof. induction 1; cbn [sum fold_right] in *; unfold sum in *; cbn [fold_right]; lra. Qed.
Definition flat (p : fpoint) : Prop := fin (nx p) /\ fin (ny p) /\ Rabs (R64 (nx p)) <= 2048 /\ Rabs (R64 (ny p)) <= 2048.
Lemma mean_near l : l <> [] -> (Z.of_nat (length l) <= 1048576)%Z -> Forall flat l -> near_average (/ 2097152) (mean l) l /\ moderate (mean l).
Proof.
  intros NE L F. unfold mean. rewrite fold_pair. cbn [nx ny].
  destruct (mean_coord (map nx l)) as (A1 & A2 & A3); [destruct l; discriminate || congruence|rewrite map_length; exact L|apply Forall_map; eapply Forall_impl; [|exact F]; intros p (?&?&?&?); auto|].
  destruct (mean_coord (map ny l)) as (B1 & B2 & B3); [destruct l; discriminate || congruence|rewrite map_length; exact L|apply Forall_map; eapply Forall_impl; [|exact F]; intros p (?&?&?&?); auto|].
  rewrite map_length, rsum_sum in A2, B2. rewrite map_length in A1, A3, B1, B3. unfold near_average, moderate. cbn [nx ny]. auto 10.
Qed.
Lemma near_perm e c l l' : Permutation l l' -> near_average e c l -> near_average e c l'.
Proof. intros P (A & B & D & E). rewrite (sum_perm _ _ _ P), (Permutation_length P) in D. rewrite (sum_perm _ _ _ P), (Permutation_length P) in E. unfold near_average. auto. Qed.

(** * Cells *)
Lemma frame_flat w h p : (0 <= w <= 1920)%Z -> (0 <= h <= 1920)%Z -> in_frame w h p -> flat p.
Proof.
  intros Hw Hh (A & B & D & E). assert (0 <= IZR w <= 1920) by (split; apply IZR_le; lia). assert (0 <= IZR h <= 1920) by (split; apply IZR_le; lia).
  split; [exact A|]. split; [exact B|]. split; apply Rabs_le; lra.
Qed.
Lemma flat_moderate p : flat p -> moderate p.
Proof. intros (A & B & D & E). split; [exact A|]. split; [exact B|]. split; lra. Qed.
Theorem cell_order srt w h p cs poly : sorter_ok srt -> sorts srt -> (0 <= w <= 1920)%Z -> (0 <= h <= 1920)%Z -> (Z.abs (px p) <= 8192)%Z -> (Z.abs (py p) <= 8192)%Z -> Forall fpfin cs ->
  cell_from srt w h p cs = Some poly -> (Z.of_nat (length poly) <= 1048576)%Z -> poly <> [] ->
  exists c, ((exists x, In x cs /\ outside x w h = true) -> near_average (/ 2097152) c poly) /\ ((forall x, In x cs -> outside x w h = false) -> c = fpt p) /\ (all_clear c poly -> in_order c poly).
Proof.
  intros SO ST Hw Hh Hx Hy F E L NE. pose proof (cell_frame srt w h p cs poly SO Hw Hh F E) as FR.
  assert (FL : Forall flat poly) by (eapply Forall_impl; [|exact FR]; intros q; apply frame_flat; assumption). assert (FM : Forall moderate poly) by (eapply Forall_impl; [|exact FL]; apply flat_moderate).
  unfold cell_from in E. pose proof (collect_clip w h cs ([], false)) as CL. destruct (fold_left (collect w h) cs ([], false)) as [points clip]. cbn [snd orb] in CL.
  destruct (srt _ points) as [points'|] eqn:E1; [|discriminate]. destruct clip.
  - pose proof (so_perm _ SO _ _ _ E) as P. set (poly0 := clip_polygon w h points') in *. exists (mean poly0).
    assert (NE0 : poly0 <> []) by (intros H; rewrite H in P; apply Permutation_nil in P; contradiction). assert (FL0 : Forall flat poly0) by (eapply Permutation_Forall; [apply Permutation_sym, P|exact FL]).
    destruct (mean_near poly0 NE0 ltac:(rewrite (Permutation_length P); exact L) FL0) as [NA MM]. split; [intros _; exact (near_perm _ _ _ _ P NA)|]. split.
    + intros H. exfalso. symmetry in CL. apply existsb_exists in CL as (x & Ix & Ox). rewrite (H x Ix) in Ox. discriminate.
    + apply (sort_order srt _ poly0 poly (around_second (mean poly0)) SO ST MM FM); [|exact E]. intros b a r K. unfold around_second. rewrite K. reflexivity.
  - injection E as <-. exists (fpt p). split; [intros (x & Ix & Ox); exfalso; symmetry in CL; apply not_true_iff_false in CL; apply CL, existsb_exists; eauto|]. split; [reflexivity|].
    assert (Mp : moderate (fpt p)).
    { destruct (of_Z_R (px p) ltac:(lia)) as [F1 R1]. destruct (of_Z_R (py p) ltac:(lia)) as [F2 R2]. unfold moderate, fpt. cbn [nx ny]. rewrite R1, R2, <- !abs_IZR. split; [exact F1|]. split; [exact F2|]. split; apply IZR_le; lia. }
    apply (sort_order srt _ points points' (around (fpt p)) SO ST Mp FM); [|exact E1]. auto.
Qed.
