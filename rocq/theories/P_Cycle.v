(** C95: the comparisons that order the vertices of a cell never contradict themselves in a cycle,
    but they are not transitive. *)
From Coq Require Import ZArith List Bool Lia Reals Lra Psatz Relations.
From Flocq Require Import Core IEEE754.BinarySingleNaN.
From Verif Require Import GoNum FloatLemmas M_Norm M_Slice M_Geom S_Geom M_Raster S_Raster M_Delaunay M_Voronoi S_Voronoi S_Corner S_Order L_Geom L_Voronoi L_Corner L_SliceSort L_Order.
Import ListNotations.
Open Scope R_scope.
Local Notation isSome o := (match o with Some _ => true | None => false end).

(** The direction (x, y) comes before (x', y'); e and e' have the signs of y and y'. *)
Definition earlier_dir (x y e x' y' e' : R) : Prop :=
  (x < 0 /\ 0 <= x') \/ (((x < 0 /\ x' < 0) \/ (0 < x /\ 0 < x')) /\ x' * y < x * y') \/
  (x = 0 /\ x' = 0 /\ ((e' < 0 /\ e < 0 /\ e' < e) \/ ((0 <= e' \/ 0 <= e) /\ e < e'))) \/
  (x = 0 /\ e < 0 /\ 0 < x') \/ (0 < x /\ x' = 0 /\ 0 <= e').
Lemma slopes x y x' y' x'' y'' : (x < 0 /\ x' < 0 /\ x'' < 0) \/ (0 < x /\ 0 < x' /\ 0 < x'') -> x' * y < x * y' -> x'' * y' < x' * y'' -> x'' * y < x * y''.
Proof.
  intros S A B. assert (ID : x' * (x * y'' - x'' * y) = x * (x' * y'' - x'' * y') + x'' * (x * y' - x' * y)) by ring. destruct S as [(H & H' & H'')|(H & H' & H'')].
  - assert (0 < - x * (x' * y'' - x'' * y')) by (apply Rmult_lt_0_compat; lra). assert (0 < - x'' * (x * y' - x' * y)) by (apply Rmult_lt_0_compat; lra). nra.
  - assert (0 < x * (x' * y'' - x'' * y')) by (apply Rmult_lt_0_compat; lra). assert (0 < x'' * (x * y' - x' * y)) by (apply Rmult_lt_0_compat; lra). nra.
Qed.
Lemma dir_trans x y e x' y' e' x'' y'' e'' : earlier_dir x y e x' y' e' -> earlier_dir x' y' e' x'' y'' e'' -> earlier_dir x y e x'' y'' e''.
Proof.
  unfold earlier_dir. intros H H'.
  repeat match goal with
  | K : _ \/ _ |- _ => destruct K
  | K : _ /\ _ |- _ => destruct K
  end.
  all: first [exfalso; lra | left; lra
    | right; left; split; [left; split; lra|apply (slopes x y x' y' x'' y''); [left; lra|assumption|assumption]]
    | right; left; split; [right; split; lra|apply (slopes x y x' y' x'' y''); [right; lra|assumption|assumption]]
    | right; right; right; left; lra | right; right; right; right; lra
    | right; right; left; split; [lra|]; split; [lra|]; first [left; lra | right; split; [left; lra|lra] | right; split; [right; lra|lra]]].
Qed.
Lemma dir_irrefl x y e : ~ earlier_dir x y e x y e.
Proof. unfold earlier_dir. intros H. repeat match goal with K : _ \/ _ |- _ => destruct K | K : _ /\ _ |- _ => destruct K end; lra. Qed.

Lemma det_neg x y z w : fin x -> fin y -> fin z -> fin w -> Rabs (R64 x) <= 16385 -> Rabs (R64 y) <= 16385 -> Rabs (R64 z) <= 16385 -> Rabs (R64 w) <= 16385 ->
  flt (fsub (fmul x y) (fmul z w)) f0 = true -> R64 x * R64 y < R64 z * R64 w.
Proof.
  intros Fx Fy Fz Fw Bx By Bz Bw. assert (P : forall u v, Rabs u <= 16385 -> Rabs v <= 16385 -> Rabs (u * v) <= bpow radix2 30).
  { intros u v Hu Hv. rewrite Rabs_mult. change (bpow radix2 30) with 1073741824. pose proof (Rabs_pos u). pose proof (Rabs_pos v). nra. }
  destruct (fmul_R x y Fx Fy) as [F1 E1]; [eapply Rle_trans; [apply P; assumption|apply bpow_le; lia]|]. destruct (fmul_R z w Fz Fw) as [F2 E2]; [eapply Rle_trans; [apply P; assumption|apply bpow_le; lia]|].
  pose proof (rnd_abs_le _ 30 ltac:(lia) (P _ _ Bx By)) as M1. pose proof (rnd_abs_le _ 30 ltac:(lia) (P _ _ Bz Bw)) as M2. rewrite <- E1 in M1. rewrite <- E2 in M2.
  assert (B : Rabs (R64 (fmul x y) - R64 (fmul z w)) <= bpow radix2 31).
  { change (bpow radix2 30) with 1073741824 in *. change (bpow radix2 31) with 2147483648. apply Rabs_le_inv in M1, M2. apply Rabs_le. lra. }
  destruct (fsub_R _ _ F1 F2) as [F E]; [eapply Rle_trans; [exact B|apply bpow_le; lia]|]. rewrite flt_R by (assumption || reflexivity). rewrite f0_R. intros L. destruct (Rlt_bool_spec (R64 (fsub (fmul x y) (fmul z w))) 0) as [L'|]; [clear L|discriminate].
  destruct (Rlt_le_dec (R64 x * R64 y) (R64 z * R64 w)) as [|G]; [assumption|exfalso]. apply rnd_le in G. rewrite <- E1, <- E2 in G. assert (H : 0 <= R64 (fmul x y) - R64 (fmul z w)) by lra. apply rnd_le in H. rewrite rnd_0, <- E in H. lra.
Qed.

Lemma straight ay by_ ea eb k : (0 <= ay <-> 0 <= ea) -> (0 <= by_ <-> 0 <= eb) -> Some (if Rle_bool 0 ay || Rle_bool 0 by_ then Rlt_bool (eb + k) (ea + k) else Rlt_bool (ea + k) (eb + k)) = Some true ->
  (ea < 0 /\ eb < 0 /\ ea < eb) \/ ((0 <= ea \/ 0 <= eb) /\ eb < ea).
Proof.
  intros Sa Sb E. injection E as E. destruct (Rle_bool_spec 0 ay) as [A|A]; cbn [orb] in E.
  - destruct (Rlt_bool_spec (eb + k) (ea + k)); [|discriminate]. right. split; [left; tauto|lra].
  - assert (ea < 0) by (destruct (Rle_lt_dec 0 ea) as [L|]; [apply Sa in L; lra|assumption]). destruct (Rle_bool_spec 0 by_) as [B|B].
    + destruct (Rlt_bool_spec (eb + k) (ea + k)); [|discriminate]. right. split; [right; tauto|lra].
    + destruct (Rlt_bool_spec (ea + k) (eb + k)); [|discriminate]. left. split; [assumption|]. split; [|lra]. destruct (Rle_lt_dec 0 eb) as [L|]; [apply Sb in L; lra|assumption].
Qed.
(** The comparison is right about the rounded differences. *)
Lemma second_dir c b a : moderate c -> moderate a -> moderate b -> around_second c b a = Some true ->
  earlier_dir (R64 (fsub (nx b) (nx c))) (R64 (fsub (ny b) (ny c))) (dy c b) (R64 (fsub (nx a) (nx c))) (R64 (fsub (ny a) (ny c))) (dy c a).
Proof.
  intros (Fc1 & Fc2 & Bc1 & Bc2) (Fa1 & Fa2 & Ba1 & Ba2) (Fb1 & Fb2 & Bb1 & Bb2). unfold around_second, around.
  destruct (sub_sign _ _ Fa1 Fc1 Ba1 Bc1) as (Fax & _ & _). destruct (sub_sign _ _ Fa2 Fc2 Ba2 Bc2) as (Fay & Say & Zay). destruct (sub_sign _ _ Fb1 Fc1 Bb1 Bc1) as (Fbx & _ & _). destruct (sub_sign _ _ Fb2 Fc2 Bb2 Bc2) as (Fby & Sby & Zby).
  destruct (msub _ _ Fa1 Fc1 Ba1 Bc1) as (_ & Dax & Kax). destruct (msub _ _ Fa2 Fc2 Ba2 Bc2) as (_ & Day & Kay). destruct (msub _ _ Fb1 Fc1 Bb1 Bc1) as (_ & Dbx & Kbx). destruct (msub _ _ Fb2 Fc2 Bb2 Bc2) as (_ & Dby & Kby).
  fold (dx c a) in *. fold (dy c a) in *. fold (dx c b) in *. fold (dy c b) in *.
  assert (NA : forall u v, Rabs (u - v) <= / 1099511627776 -> Rabs v <= 16384 -> Rabs u <= 16385) by (intros u v K1 K2; apply Rabs_le_inv in K1, K2; apply Rabs_le; lra).
  pose proof (NA _ _ Dax Kax) as Nax. pose proof (NA _ _ Day Kay) as Nay. pose proof (NA _ _ Dbx Kbx) as Nbx. pose proof (NA _ _ Dby Kby) as Nby. clear NA Dax Day Dbx Dby Kax Kay Kbx Kby.
  pose proof (det_neg _ _ _ _ Fax Fby Fbx Fay Nax Nby Nbx Nay) as DN. revert DN. set (det := fsub (fmul _ _) (fmul _ _)). clearbody det.
  destruct (flt det f0); [intros DN; specialize (DN eq_refl)|intros _; destruct (flt f0 det)].
  all: rewrite !fle_R, !(flt_R _ f0), (flt_R (ny b)), (flt_R (ny a)), !feq_R by (assumption || reflexivity); rewrite f0_R.
  all: assert (Ya : R64 (ny a) = dy c a + R64 (ny c)) by (unfold dy; ring); assert (Yb : R64 (ny b) = dy c b + R64 (ny c)) by (unfold dy; ring); rewrite Ya, Yb; clear Ya Yb.
  all: revert Say Zay Sby Zby; try revert DN; generalize (R64 (fsub (nx a) (nx c))) (R64 (fsub (ny a) (ny c))) (R64 (fsub (nx b) (nx c))) (R64 (fsub (ny b) (ny c))) (dy c a) (dy c b); intros ax ay bx by_ ea eb.
  all: clear; unfold earlier_dir; intros.
  all: destruct (Rle_bool_spec 0 ax), (Rlt_bool_spec ax 0), (Rle_bool_spec 0 bx), (Rlt_bool_spec bx 0), (Req_bool_spec ax 0), (Req_bool_spec bx 0); cbn [andb] in *; try discriminate; try lra.
  all: try (left; lra).
  all: try match goal with E : Some (if _ then _ else _) = Some true |- _ => right; right; left; split; [assumption|]; split; [assumption|]; exact (straight _ _ _ _ _ Say Sby E) end.
  - right; right; right; right. subst ax. rewrite Rmult_0_l in DN. assert (0 < bx) by lra. split; [assumption|]. split; [reflexivity|]. apply Say. destruct (Rle_lt_dec 0 ay) as [|L]; [assumption|]. nra.
  - right; right; right; left. subst bx. rewrite Rmult_0_l in DN. assert (0 < ax) by lra. split; [reflexivity|]. split; [|assumption]. destruct (Rle_lt_dec 0 eb) as [L|]; [|assumption]. apply Sby in L. nra.
Qed.

(** In the comparisons of the second sort, "before" has no cycles: there are no vertices
    x1, ..., xn each of which is said to come before the next, and the last before the first. *)
Definition said_before (c b a : fpoint) : Prop := moderate b /\ moderate a /\ around_second c b a = Some true.
Theorem C95_no_cycles : forall c x, moderate c -> ~ clos_trans fpoint (said_before c) x x.
Proof.
  intros c x Mc H. assert (G : forall b a, clos_trans fpoint (said_before c) b a -> earlier_dir (R64 (fsub (nx b) (nx c))) (R64 (fsub (ny b) (ny c))) (dy c b) (R64 (fsub (nx a) (nx c))) (R64 (fsub (ny a) (ny c))) (dy c a)).
  { intros b a K. induction K as [b a (Mb & Ma & E)|b m a _ IH1 _ IH2]; [exact (second_dir c b a Mc Ma Mb E)|exact (dir_trans _ _ _ _ _ _ _ _ _ IH1 IH2)]. }
  exact (dir_irrefl _ _ _ (G x x H)).
Qed.
Print Assumptions C95_no_cycles.
(** The same of the first sort, which panics instead of returning false if it cannot decide. *)
Theorem C95_no_cycles_first : forall c x, moderate c -> ~ clos_trans fpoint (fun b a => moderate b /\ moderate a /\ around c b a = Some true) x x.
Proof.
  intros c x Mc H. apply (C95_no_cycles c x Mc). revert H. generalize x at 2 4. intros y H. induction H as [b a (Mb & Ma & E)|b m a _ IH1 _ IH2].
  - apply t_step. split; [exact Mb|]. split; [exact Ma|]. unfold around_second. rewrite E. reflexivity.
  - exact (t_trans _ _ _ _ _ IH1 IH2).
Qed.
Print Assumptions C95_no_cycles_first.

(** But sort.Slice asks for more: being before must be transitive, and it is not.  The directions of
    the three vertices from the centre (0, 0) differ by less than the products are rounded by. *)
Theorem C95_transitive_refuted : exists c a b d, moderate c /\ moderate a /\ moderate b /\ moderate d /\
  around_second c a b = Some true /\ around_second c b d = Some true /\ around_second c a d = Some false /\ around_second c d a = Some false.
Proof.
  exists (NP f0 f0), (NP (f64_dy (6126900734087766) (-50)) (f64_dy (5443969810275824) (-50))), (NP (f64_dy (5979913690508214) (-50)) (f64_dy (5313366579951428) (-50))), (NP (f64_dy (5792062987581554) (-51)) (f64_dy (5146454530947244) (-51))).
  assert (M : forall m m' e e', (Z.abs m <= 2 ^ 53)%Z -> (Z.abs m' <= 2 ^ 53)%Z -> (-51 <= e <= -50)%Z -> (-51 <= e' <= -50)%Z -> moderate (NP (f64_dy m e) (f64_dy m' e'))).
  { assert (K : forall m e, (Z.abs m <= 2 ^ 53)%Z -> (-51 <= e <= -50)%Z -> fin (f64_dy m e) /\ Rabs (R64 (f64_dy m e)) <= 8192).
    { intros m e Hm He. assert (B : Rabs (IZR m * bpow radix2 e) <= bpow radix2 3).
      { rewrite Rabs_mult, (Rabs_pos_eq (bpow _ _)) by apply bpow_ge_0. replace (bpow radix2 3) with (bpow radix2 53 * bpow radix2 (-50)) by (rewrite <- bpow_plus; reflexivity). apply Rmult_le_compat; [apply Rabs_pos|apply bpow_ge_0| |apply bpow_le; lia].
        rewrite <- abs_IZR. change (bpow radix2 53) with (IZR (2 ^ 53)). apply IZR_le, Hm. }
      destruct (f64_dy_R m e) as [F E]; [eapply Rle_trans; [exact B|apply bpow_le; lia]|]. split; [exact F|]. rewrite E. eapply Rle_trans; [apply (rnd_abs_le _ 3); [lia|exact B]|]. change (bpow radix2 3) with 8. lra. }
    intros m m' e e' A B C D. destruct (K m e A C), (K m' e' B D). split; [assumption|]. split; [assumption|]. split; assumption. }
  split; [split; [reflexivity|split; [reflexivity|cbn [nx ny]; rewrite f0_R, Rabs_R0; lra]]|]. split; [apply M; lia|]. split; [apply M; lia|]. split; [apply M; lia|]. clear M.
  split; [vm_compute; reflexivity|]. split; [vm_compute; reflexivity|]. split; vm_compute; reflexivity.
Qed.
Print Assumptions C95_transitive_refuted.

(** For the first sort this means that whether it panics depends on the order in which it finds the
    vertices: of the three above, it sorts [a; b; d], but panics on [a; d; b]. *)
Theorem C95_panic_order_refuted : exists c a b d, isSome (slice_sort (around c) [a; b; d]) = true /\ isSome (slice_sort (around c) [a; d; b]) = false.
Proof.
  exists (NP f0 f0), (NP (f64_dy (6126900734087766) (-50)) (f64_dy (5443969810275824) (-50))), (NP (f64_dy (5979913690508214) (-50)) (f64_dy (5313366579951428) (-50))), (NP (f64_dy (5792062987581554) (-51)) (f64_dy (5146454530947244) (-51))). split; vm_compute; reflexivity.
Qed.
Print Assumptions C95_panic_order_refuted.

(** Three vertices around (50, 50) of which the comparisons say that the first is before the second
    and the second before the third: then the third is not said to come before the first. *)
Example C95_case : let c := NP (f64_of_Z 50) (f64_of_Z 50) in let x := NP (f64_of_Z 20) (f64_of_Z 50) in let y := NP (f64_of_Z 50) (f64_of_Z 20) in let z := NP (f64_of_Z 90) (f64_of_Z 60) in
  said_before c x y /\ said_before c y z /\ around_second c z x = Some false /\ around_second c x x = Some false.
Proof.
  cbv zeta. assert (M : forall a b, (Z.abs a <= 100)%Z -> (Z.abs b <= 100)%Z -> moderate (NP (f64_of_Z a) (f64_of_Z b))).
  { intros a b A B. destruct (of_Z_R a ltac:(lia)) as [Fa Ea]. destruct (of_Z_R b ltac:(lia)) as [Fb Eb]. split; [exact Fa|]. split; [exact Fb|]. cbn [nx ny]. rewrite Ea, Eb, <- !abs_IZR. split; apply IZR_le; lia. }
  split; [split; [apply M; lia|split; [apply M; lia|vm_compute; reflexivity]]|]. split; [split; [apply M; lia|split; [apply M; lia|vm_compute; reflexivity]]|]. split; vm_compute; reflexivity.
Qed.
