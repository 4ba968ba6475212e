(** A tiling has at most two triangles per vertex. *)
From Coq Require Import ZArith List Bool Lia Permutation.
From Verif Require Import M_Geom S_Geom M_Raster S_Raster L_Raster1 L_Raster6 S_Delaunay L_Plane.
Import ListNotations.
Open Scope Z_scope.

Lemma neg_neg p : neg (neg p) = p. Proof. destruct p as [x y]. unfold neg. cbn [px py]. f_equal; lia. Qed.
Lemma neg_inj p q : neg p = neg q -> p = q. Proof. intros H. rewrite <- (neg_neg p), H. apply neg_neg. Qed.

Definition nege (e : point * point) : point * point := (neg (fst e), neg (snd e)).
Lemma tedges_neg T : flat_map tedges (map negt T) = map nege (flat_map tedges T).
Proof. induction T as [|t T IH]; [reflexivity|]. cbn [map flat_map]. rewrite map_app, IH. reflexivity. Qed.
Lemma count_neg a b l : count (edge_eqb (a, b)) (map nege l) = count (edge_eqb (neg a, neg b)) l.
Proof.
  induction l as [|[c d] l IH]; [reflexivity|]. cbn [map]. rewrite !count_cons, IH. f_equal. f_equal.
  destruct (edge_eqb (neg a, neg b) (c, d)) eqn:E.
  - apply edge_eqb_eq in E. injection E as <- <-. unfold nege. cbn [fst snd]. rewrite !neg_neg. apply edge_eqb_refl.
  - apply edge_eqb_neq. unfold nege. cbn [fst snd]. intros [= -> ->]. rewrite !neg_neg, edge_eqb_refl in E. discriminate.
Qed.
Lemma net_neg T a b : net (map negt T) a b = net T (neg a) (neg b).
Proof. unfold net. rewrite tedges_neg, !count_neg. reflexivity. Qed.
Lemma pos_neg t : pos (negt t) <-> pos t.
Proof. unfold pos, negt, orient, neg. cbn [ta tb tc px py]. split; intros H; ring_simplify; ring_simplify in H; lia. Qed.
Lemma tiling_neg s T : tiling s T -> tiling (negt s) (map negt T).
Proof.
  intros H. constructor.
  - intros a b. change [negt s] with (map negt [s]). rewrite !net_neg. apply H.
  - apply Forall_forall. intros t I. apply in_map_iff in I. destruct I as (u & <- & I). apply pos_neg.
    eapply Forall_forall; [apply H|exact I].
  - apply pos_neg, H.
Qed.

Lemma sumZ_plus {A} (f g : A -> Z) l : sumZ (map (fun x => f x + g x) l) = sumZ (map f l) + sumZ (map g l).
Proof. induction l as [|a l IH]; cbn [map sumZ]; [reflexivity|]. rewrite IH. ring. Qed.
Lemma sumZ_swap {A B} (f : A -> B -> Z) la lb :
  sumZ (map (fun a => sumZ (map (f a) lb)) la) = sumZ (map (fun b => sumZ (map (fun a => f a b) la)) lb).
Proof.
  induction la as [|a la IH]; cbn [map sumZ].
  - induction lb; cbn [map sumZ]; lia.
  - rewrite IH. rewrite <- sumZ_plus. reflexivity.
Qed.
Lemma sumZ_le {A} (f g : A -> Z) l : (forall x, In x l -> f x <= g x) -> sumZ (map f l) <= sumZ (map g l).
Proof. induction l as [|a l IH]; cbn [map sumZ]; intros H; [lia|]. pose proof (H a (or_introl eq_refl)). specialize (IH (fun x I => H x (or_intror I))). lia. Qed.
Lemma sumZ_const {A} (c : Z) (l : list A) : sumZ (map (fun _ => c) l) = c * Z.of_nat (length l).
Proof. induction l as [|a l IH]; cbn [map sumZ length]; lia. Qed.
Lemma sumZ_perm l l' : Permutation l l' -> sumZ l = sumZ l'.
Proof. induction 1; cbn [sumZ]; lia. Qed.
Lemma sumZ_app l l' : sumZ (l ++ l') = sumZ l + sumZ l'. Proof. induction l; cbn [app sumZ]; lia. Qed.
Lemma sumZ_sub {A} (f : A -> Z) l V : NoDup l -> (forall x, In x l -> In x V) -> (forall x, In x V -> 0 <= f x) -> sumZ (map f l) <= sumZ (map f V).
Proof.
  revert V. induction l as [|a l IH]; intros V ND S0 N0; cbn [map sumZ].
  - clear - N0. induction V as [|b V IH]; cbn [map sumZ]; [lia|]. pose proof (N0 b (or_introl eq_refl)). specialize (IH (fun x I => N0 x (or_intror I))). lia.
  - inversion ND; subst. destruct (in_split a V (S0 a (or_introl eq_refl))) as (V1 & V2 & ->).
    rewrite map_app. cbn [map]. rewrite sumZ_app. cbn [sumZ].
    assert (G : sumZ (map f l) <= sumZ (map f (V1 ++ V2))).
    { apply IH; [assumption| |].
      - intros x I. specialize (S0 x (or_intror I)). apply in_app_or in S0. apply in_or_app. destruct S0 as [J|[J|J]]; auto. subst; contradiction.
      - intros x I. apply N0. apply in_app_or in I. apply in_or_app. destruct I; [left|right; right]; assumption. }
    rewrite map_app, sumZ_app in G. lia.
Qed.
Lemma winds_sum q T : winds q T = sumZ (map (wind q) T).
Proof. induction T as [|t T IH]; [reflexivity|]. rewrite winds_cons, IH. reflexivity. Qed.

Lemma pos_verts_NoDup t : pos t -> NoDup (verts t).
Proof.
  unfold pos. intros H. apply pos_distinct in H. destruct H as (A & B & C). unfold verts.
  constructor; [intros [X|[X|[]]]; congruence|]. constructor; [intros [X|[]]; congruence|]. constructor; [intros []|constructor].
Qed.

Theorem tiling_count s T V : tiling s T -> NoDup V -> (forall t v, In t T -> In v (verts t) -> In v V) ->
  Z.of_nat (length T) <= 2 * Z.of_nat (length V).
Proof.
  intros H ND S0. assert (PT : forall t, In t T -> pos t) by (apply Forall_forall, H).
  set (f := fun t v => wind (at_pt v) t + wind (at_pt (neg v)) (negt t)).
  assert (N0 : forall t v, In t T -> 0 <= f t v).
  { intros t v I. unfold f. pose proof (wind_01 (at_pt v) t ltac:(cbn; lia) (PT t I)).
    pose proof (wind_01 (at_pt (neg v)) (negt t) ltac:(cbn; lia) (proj2 (pos_neg t) (PT t I))). lia. }
  assert (L1 : Z.of_nat (length T) <= sumZ (map (fun t => sumZ (map (f t) V)) T)).
  { rewrite <- (Z.mul_1_l (Z.of_nat _)), <- sumZ_const. apply sumZ_le. intros t I. rewrite <- (median_once t (PT t I)).
    apply sumZ_sub; [apply pos_verts_NoDup; auto|intros v; apply S0; exact I|intros; apply N0; exact I]. }
  rewrite sumZ_swap in L1. etransitivity; [exact L1|]. rewrite <- sumZ_const. apply sumZ_le. intros v I. unfold f. rewrite sumZ_plus.
  rewrite <- winds_sum. rewrite <- (map_map negt (wind (at_pt (neg v)))). rewrite <- winds_sum.
  rewrite (tiling_winds _ _ _ H), (tiling_winds _ _ _ (tiling_neg _ _ H)).
  pose proof (wind_01 (at_pt v) s ltac:(cbn; lia) (t_spos _ _ H)). pose proof (wind_01 (at_pt (neg v)) (negt s) ltac:(cbn; lia) (proj2 (pos_neg s) (t_spos _ _ H))). lia.
Qed.
