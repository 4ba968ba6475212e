(** Voronoi cells stay in the image. *)
From Coq Require Import ZArith List Bool Lia Permutation Reals Lra.
From Flocq Require Import Core.Core IEEE754.BinarySingleNaN.
From Verif Require Import GoNum FloatLemmas M_Norm M_Slice M_Geom M_Image M_Raster M_Delaunay S_Delaunay L_PMap M_Voronoi S_Voronoi.
Import ListNotations.
Open Scope R_scope.

Definition fpfin (p : fpoint) : Prop := fin (nx p) /\ fin (ny p).

Lemma epsilon_R : fin epsilon /\ 0.0001 - / 1000000000000000 <= R64 epsilon <= 0.0001 + / 1000000000000000.
Proof.
  destruct (of_Z_R 10000 ltac:(lia)) as [F E]. destruct (fdiv_R f1 (f64_of_Z 10000) f1_fin F) as [F' E'].
  - rewrite E. lra.
  - rewrite E, f1_R. apply Rle_trans with (bpow radix2 0); [cbn; apply Rabs_le; lra|apply bpow_le; lia].
  - split; [exact F'|]. unfold epsilon. rewrite E', E, f1_R.
    pose proof (rnd_err (1 / 10000) (-13) ltac:(lia) ltac:(cbn; apply Rabs_le; lra)) as B. apply Rabs_le_inv in B. cbn in B. lra.
Qed.
Lemma fopp_R x : fin x -> fin (fopp x) /\ R64 (fopp x) = - R64 x.
Proof. intros F. split; [unfold fin, fopp; rewrite is_finite_Bopp; exact F|apply B2R_Bopp]. Qed.

Lemma b11 : bpow radix2 11 = 2048. Proof. cbn. lra. Qed.
Lemma b43 : bpow radix2 (11 - 54) = / 8796093022208. Proof. cbn. lra. Qed.
Lemma limit_R w : (0 <= w <= 1920)%Z -> fin (fadd (f64_of_Z w) epsilon) /\ R64 (fadd (f64_of_Z w) epsilon) <= IZR w + 0.000100001.
Proof.
  intros Hw. destruct (of_Z_R w ltac:(lia)) as [F E]. destruct epsilon_R as [Fe Be].
  assert (B : 0 <= IZR w <= 1920) by (split; apply IZR_le; lia).
  assert (BB : Rabs (R64 (f64_of_Z w) + R64 epsilon) <= bpow radix2 11).
  { rewrite E. set (e := R64 epsilon) in *. clearbody e. rewrite b11. apply Rabs_le. lra. }
  destruct (fadd_R _ _ F Fe) as [F' E']; [eapply Rle_trans; [exact BB|apply bpow_le; lia]|]. split; [exact F'|].
  rewrite E'. pose proof (rnd_err _ 11 ltac:(lia) BB) as X. apply Rabs_le_inv in X. rewrite b43, E in X. rewrite E. set (e := R64 epsilon) in *. clearbody e. lra.
Qed.

Lemma inside_frame w h p : (0 <= w <= 1920)%Z -> (0 <= h <= 1920)%Z -> fpfin p -> outside p w h = false -> in_frame w h p.
Proof.
  intros Hw Hh [F1 F2] O. unfold outside in O. apply orb_false_iff in O. destruct O as [O O4]. apply orb_false_iff in O. destruct O as [O O3]. apply orb_false_iff in O. destruct O as [O1 O2].
  destruct epsilon_R as [Fe Be]. destruct (fopp_R _ Fe) as [Fo Eo]. destruct (limit_R w Hw) as [Fw Bw]. destruct (limit_R h Hh) as [Fh Bh].
  rewrite flt_R in O1, O2, O3, O4 by assumption. rewrite Eo in O1, O2.
  revert O1 O2 O3 O4. do 4 (case Rlt_bool_spec; [discriminate|]; intros ? _). unfold in_frame. repeat split; try assumption; lra.
Qed.

Lemma unit_float t : fle f0 t = true -> fle t f1 = true -> fin t /\ 0 <= R64 t <= 1.
Proof.
  intros A B. assert (F : fin t).
  { destruct t as [s|s| |s m e Hb]; [reflexivity| |discriminate A|reflexivity]. destruct s; [discriminate A|discriminate B]. }
  split; [exact F|]. rewrite fle_R in A, B by (assumption || reflexivity). rewrite f0_R in A. rewrite f1_R in B.
  revert A B. do 2 (case Rle_bool_spec; [|discriminate]; intros ? _). lra.
Qed.

(** One coordinate of an intersection: from 0 or w along -w, 0 or w. *)
Lemma coord_between w a b t : (0 <= w <= 1920)%Z -> fin a -> fin b -> (R64 a = 0 \/ R64 a = IZR w) -> (R64 b = 0 \/ R64 b = IZR w) -> fin t -> 0 <= R64 t <= 1 ->
  fin (fadd a (fmul t (fsub b a))) /\ 0 <= R64 (fadd a (fmul t (fsub b a))) <= IZR w.
Proof.
  intros Hw Fa Fb Va Vb Ft Bt. assert (Bw : 0 <= IZR w <= 1920) by (split; apply IZR_le; lia).
  assert (BIG : forall x, - 4000 <= x <= 4000 -> Rabs x <= bpow radix2 1023).
  { intros x Hx. apply Rle_trans with (bpow radix2 12); [cbn; apply Rabs_le; lra|apply bpow_le; lia]. }
  destruct (fsub_R b a Fb Fa) as [Fs Es]; [apply BIG; lra|].
  assert (Es' : R64 (fsub b a) = R64 b - R64 a).
  { rewrite Es. destruct Va as [-> | ->], Vb as [-> | ->]; try (rewrite Rminus_diag_eq by reflexivity; apply rnd_0).
    - rewrite Rminus_0_r. apply rnd_Z. lia.
    - rewrite Rminus_0_l, rnd_opp. rewrite rnd_Z by lia. reflexivity. }
  assert (Bm : forall s, - 1920 <= s <= 1920 -> - 1920 <= R64 t * s <= 1920) by (intros s Hs; clear - Bt Hs; split; nra).
  destruct (fmul_R t (fsub b a) Ft Fs) as [Fm Em]; [apply BIG; rewrite Es'; pose proof (Bm (R64 b - R64 a)); lra|]. rewrite Es' in Em.
  assert (M0 : forall z, (z = w \/ z = 0)%Z -> 0 <= rnd (R64 t * IZR z) <= IZR z).
  { intros z Hz. assert (0 <= IZR z) by (apply IZR_le; lia). split; [rewrite <- rnd_0; apply rnd_le; apply Rmult_le_pos; lra|].
    rewrite <- (rnd_Z z) at 2 by lia. apply rnd_le. clear - H Bt. nra. }
  assert (B2 : R64 (fmul t (fsub b a)) = 0 \/ (R64 a = 0 /\ 0 <= R64 (fmul t (fsub b a)) <= IZR w) \/ (R64 a = IZR w /\ - IZR w <= R64 (fmul t (fsub b a)) <= 0)).
  { rewrite Em. pose proof (M0 w (or_introl eq_refl)) as Q. destruct Va as [Ea|Ea], Vb as [Eb|Eb]; rewrite Ea, Eb.
    - left. rewrite Rminus_diag_eq, Rmult_0_r by reflexivity. apply rnd_0.
    - right; left. split; [reflexivity|]. rewrite Rminus_0_r. exact Q.
    - right; right. split; [reflexivity|]. rewrite Rminus_0_l, Ropp_mult_distr_r_reverse, rnd_opp. lra.
    - left. rewrite Rminus_diag_eq, Rmult_0_r by reflexivity. apply rnd_0. }
  assert (SUM : 0 <= R64 a + R64 (fmul t (fsub b a)) <= IZR w) by (destruct B2 as [B2|[[? B2]|[? B2]]]; lra).
  destruct (fadd_R a _ Fa Fm) as [F E]; [apply BIG; lra|]. split; [exact F|]. rewrite E. split.
  - rewrite <- rnd_0. apply rnd_le. lra.
  - rewrite <- (rnd_Z w) by lia. apply rnd_le. lra.
Qed.

(** The corner coordinates. *)
Definition cval (w : Z) (x : f64) : Prop := fin x /\ (R64 x = 0 \/ R64 x = IZR w).
Lemma cval0 w : (0 <= w <= 1920)%Z -> cval w (fmul f0 (f64_of_Z w)).
Proof.
  intros Hw. destruct (of_Z_R w ltac:(lia)) as [F E]. destruct (fmul_R f0 _ f0_fin F) as [F' E'].
  - rewrite f0_R, Rmult_0_l, Rabs_R0. apply bpow_ge_0.
  - split; [exact F'|]. left. rewrite E', f0_R, Rmult_0_l. apply rnd_0.
Qed.
Lemma cval1 w : (0 <= w <= 1920)%Z -> cval w (fmul f1 (f64_of_Z w)).
Proof.
  intros Hw. destruct (of_Z_R w ltac:(lia)) as [F E]. destruct (fmul_R f1 _ f1_fin F) as [F' E'].
  - rewrite f1_R, Rmult_1_l, E. apply Rle_trans with (bpow radix2 11); [|apply bpow_le; lia]. rewrite b11. assert (0 <= IZR w <= 1920) by (split; apply IZR_le; lia). apply Rabs_le. lra.
  - split; [exact F'|]. right. rewrite E', f1_R, Rmult_1_l, E. apply rnd_Z. lia.
Qed.
Lemma edges_ok w h e : (0 <= w <= 1920)%Z -> (0 <= h <= 1920)%Z -> In e (edges w h) ->
  cval w (nx (fst e)) /\ cval h (ny (fst e)) /\ cval w (nx (snd e)) /\ cval h (ny (snd e)).
Proof.
  intros Hw Hh. pose proof (cval0 w Hw) as W0. pose proof (cval1 w Hw) as W1. pose proof (cval0 h Hh) as H0. pose proof (cval1 h Hh) as H1. unfold edges, unit_edges, scale. cbn [map fst snd nx ny].
  intros [<-|[<-|[<-|[<-|[]]]]]; cbn [fst snd nx ny]; auto.
Qed.
Lemma cval_frame w h p : (0 <= w)%Z -> (0 <= h)%Z -> cval w (nx p) -> cval h (ny p) -> in_frame w h p.
Proof.
  intros Hw Hh [F1 V1] [F2 V2]. apply IZR_le in Hw, Hh. unfold in_frame. split; [exact F1|]. split; [exact F2|]. destruct V1 as [-> | ->], V2 as [-> | ->]; lra.
Qed.

Lemma clip_edge_frame w h a b e p : (0 <= w <= 1920)%Z -> (0 <= h <= 1920)%Z -> In e (edges w h) -> In p (fst (clip_edge a b e)) -> in_frame w h p.
Proof.
  intros Hw Hh Ie. destruct (edges_ok w h e Hw Hh Ie) as ([F1 V1] & [F2 V2] & [F3 V3] & [F4 V4]). unfold clip_edge. destruct e as [e0 e1]. cbn [fst snd] in *.
  unfold segments_intersect.
  match goal with |- context [fle f0 ?s && fle ?s f1 && fle f0 ?t && fle ?t f1] => destruct (fle f0 s && fle s f1) eqn:G1; [|intros []]; destruct (fle f0 t) eqn:G2; [|intros []]; destruct (fle t f1) eqn:G3; [|intros []];
    destruct (unit_float t G2 G3) as [Ft Bt]; generalize dependent t end.
  clear G1. intros t G2 G3 Ft Bt. cbn [andb nx ny].
  destruct (coord_between w (nx e0) (nx e1) t Hw F1 F3 V1 V3 Ft Bt) as [Fx Bx]. destruct (coord_between h (ny e0) (ny e1) t Hh F2 F4 V2 V4 Ft Bt) as [Fy By].
  set (x := fadd (nx e0) (fmul t (fsub (nx e1) (nx e0)))) in *. set (y := fadd (ny e0) (fmul t (fsub (ny e1) (ny e0)))) in *. clearbody x y.
  destruct (_ && _); cbn [fst]; [|intros []]. destruct (_ && _); [|intros []]. intros [<-|[]].
  unfold in_frame. cbn [nx ny]. repeat split; try assumption; lra.
Qed.

Lemma clip_side_frame w h st ab : (0 <= w <= 1920)%Z -> (0 <= h <= 1920)%Z -> fpfin (fst ab) -> Forall (in_frame w h) (fst st) -> Forall (in_frame w h) (fst (clip_side w h st ab)).
Proof.
  intros Hw Hh Fa F. destruct st as [poly ints], ab as [a b]. cbn [fst] in *. unfold clip_side. cbn [fst]. apply Forall_app. split.
  - destruct (outside a w h) eqn:O; [exact F|]. apply Forall_app. split; [exact F|]. constructor; [|constructor]. apply inside_frame; assumption.
  - apply Forall_forall. intros p I. apply in_concat in I. destruct I as (l & Il & Ip). rewrite map_map in Il. apply in_map_iff in Il. destruct Il as (e & <- & Ie). eapply clip_edge_frame; eauto.
Qed.
Lemma sides_fst points ab : In ab (sides points) -> In (fst ab) points.
Proof.
  destruct points as [|p t]; [intros []|]. unfold sides. destruct ab as [a b]. intros I. apply in_combine_l in I. exact I.
Qed.
Lemma corners_frame w h points ints p : (0 <= w <= 1920)%Z -> (0 <= h <= 1920)%Z -> In p (corners_of w h points ints) -> in_frame w h p.
Proof.
  intros Hw Hh. unfold corners_of. destruct ints as [|i0 t]; [intros []|]. intros I. apply in_concat in I. destruct I as (l & Il & Ip). apply in_map_iff in Il. destruct Il as ((e & (i & j)) & <- & Ie).
  apply in_combine_l in Ie. destruct (_ && _ && _); [|destruct Ip]. destruct Ip as [<-|[]]. destruct (edges_ok w h e Hw Hh Ie) as (_ & _ & C1 & C2). apply cval_frame; try assumption; lia.
Qed.
Lemma clip_polygon_frame w h points : (0 <= w <= 1920)%Z -> (0 <= h <= 1920)%Z -> Forall fpfin points -> Forall (in_frame w h) (clip_polygon w h points).
Proof.
  intros Hw Hh F. unfold clip_polygon. destruct (fold_left _ _ _) as [poly ints] eqn:E.
  apply Forall_app. split; [|apply Forall_forall; intros p I; eapply corners_frame; eauto].
  assert (G : forall l st, (forall ab, In ab l -> fpfin (fst ab)) -> Forall (in_frame w h) (fst st) -> Forall (in_frame w h) (fst (fold_left (clip_side w h) l st))).
  { induction l as [|ab l IH]; cbn [fold_left]; [auto|]. intros st Hl Hs. apply IH; [intros; apply Hl; right; assumption|]. apply clip_side_frame; try assumption. apply Hl. left. reflexivity. }
  change poly with (fst (poly, ints)). rewrite <- E. apply G; [|constructor]. intros ab I. rewrite Forall_forall in F. apply F, sides_fst, I.
Qed.

(** The collected centres. *)
Lemma collect_in w h cs : forall st p, In p (fst (fold_left (collect w h) cs st)) -> In p (fst st) \/ In p cs.
Proof.
  induction cs as [|c cs IH]; cbn [fold_left]; [auto|]. intros [pts clip] p I. destruct (IH _ _ I) as [J|J]; [|right; right; exact J].
  unfold collect in J. cbn [fst] in *. destruct (existsb _ _); [auto|]. apply in_app_or in J. destruct J as [J|[<-|[]]]; [auto|right; left; reflexivity].
Qed.
Lemma collect_clip w h cs : forall st, snd (fold_left (collect w h) cs st) = snd st || existsb (fun c => outside c w h) cs.
Proof.
  induction cs as [|c cs IH]; cbn [fold_left existsb]; intros st; [now rewrite orb_false_r|]. rewrite IH. unfold collect. destruct st as [pts clip]. cbn [snd]. now rewrite orb_assoc.
Qed.

Theorem cell_frame srt w h p cs poly : sorter_ok srt -> (0 <= w <= 1920)%Z -> (0 <= h <= 1920)%Z -> Forall fpfin cs -> cell_from srt w h p cs = Some poly -> Forall (in_frame w h) poly.
Proof.
  intros SO Hw Hh F. unfold cell_from. pose proof (collect_in w h cs ([], false)) as IN. pose proof (collect_clip w h cs ([], false)) as CL.
  destruct (fold_left (collect w h) cs ([], false)) as [points clip]. cbn [fst snd] in *.
  destruct (srt _ points) as [points'|] eqn:E1; [|discriminate]. pose proof (so_perm _ SO _ _ _ E1) as P1.
  assert (Fp : Forall fpfin points').
  { apply Forall_forall. intros q I. apply Permutation_sym in P1. apply (Permutation_in _ P1) in I. destruct (IN q I) as [[]|J]. rewrite Forall_forall in F. auto. }
  destruct clip.
  - intros E2. apply (so_perm _ SO) in E2. eapply Permutation_Forall; [exact E2|]. apply clip_polygon_frame; assumption.
  - intros [= <-]. apply Forall_forall. intros q I. assert (I' : In q points) by (eapply Permutation_in; [apply Permutation_sym, P1|exact I]).
    destruct (IN q I') as [[]|J]. rewrite Forall_forall in Fp. apply inside_frame; auto.
    destruct (outside q w h) eqn:O; [|reflexivity]. cbn [orb] in CL. symmetry in CL. rewrite <- CL. symmetry. apply existsb_exists. exists q. auto.
Qed.
