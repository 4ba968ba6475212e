(** The vertices of a cell, when its computation panics, and rounding. *)
From Coq Require Import ZArith List Bool Lia Permutation Reals Lra.
From Flocq Require Import Core.Core IEEE754.BinarySingleNaN.
From Verif Require Import GoNum FloatLemmas L_F32 M_Norm S_Norm M_Slice M_Geom L_Geom M_Image M_Raster M_Delaunay S_Delaunay L_PMap M_Voronoi S_Voronoi L_Voronoi.
Import ListNotations.
Open Scope R_scope.

(* ---------------------------------------------------------------- *)
(** * Vertices on the border *)
Lemma coord_same w a b t : (0 <= w <= 1920)%Z -> fin a -> fin b -> (R64 a = 0 \/ R64 a = IZR w) -> R64 b = R64 a -> fin t -> 0 <= R64 t <= 1 ->
  R64 (fadd a (fmul t (fsub b a))) = R64 a.
Proof.
  intros Hw Fa Fb Va E Ft Bt. assert (Bw : 0 <= IZR w <= 1920) by (split; apply IZR_le; lia).
  assert (BIG : forall x, - 4000 <= x <= 4000 -> Rabs x <= bpow radix2 1023).
  { intros x Hx. apply Rle_trans with (bpow radix2 12); [cbn; apply Rabs_le; lra|apply bpow_le; lia]. }
  destruct (fsub_R b a Fb Fa) as [Fs Es]; [apply BIG; lra|]. rewrite E, Rminus_diag_eq, rnd_0 in Es by reflexivity.
  destruct (fmul_R t (fsub b a) Ft Fs) as [Fm Em]; [apply BIG; rewrite Es; lra|]. rewrite Es, Rmult_0_r, rnd_0 in Em.
  destruct (fadd_R a _ Fa Fm) as [F E']; [apply BIG; rewrite Em; lra|]. rewrite E', Em, Rplus_0_r.
  destruct Va as [-> | ->]; [apply rnd_0|apply rnd_Z; lia].
Qed.
Lemma edges_axis w h e : In e (edges w h) -> (nx (fst e) = nx (snd e)) \/ (ny (fst e) = ny (snd e)).
Proof. unfold edges, unit_edges, scale. cbn [map fst snd nx ny]. intros [<-|[<-|[<-|[<-|[]]]]]; cbn [fst snd nx ny]; auto. Qed.

Lemma clip_edge_border w h a b e p : (0 <= w <= 1920)%Z -> (0 <= h <= 1920)%Z -> In e (edges w h) -> In p (fst (clip_edge a b e)) -> on_border w h p.
Proof.
  intros Hw Hh Ie. destruct (edges_ok w h e Hw Hh Ie) as ([F1 V1] & [F2 V2] & [F3 V3] & [F4 V4]). pose proof (edges_axis w h e Ie) as AX. unfold clip_edge. destruct e as [e0 e1]. cbn [fst snd] in *.
  unfold segments_intersect.
  match goal with |- context [fle f0 ?s && fle ?s f1 && fle f0 ?t && fle ?t f1] => destruct (fle f0 s && fle s f1) eqn:G1; [|intros []]; destruct (fle f0 t) eqn:G2; [|intros []]; destruct (fle t f1) eqn:G3; [|intros []];
    destruct (unit_float t G2 G3) as [Ft Bt]; generalize dependent t end.
  clear G1. intros t G2 G3 Ft Bt. cbn [andb nx ny].
  destruct (coord_between w (nx e0) (nx e1) t Hw F1 F3 V1 V3 Ft Bt) as [Fx Bx]. destruct (coord_between h (ny e0) (ny e1) t Hh F2 F4 V2 V4 Ft Bt) as [Fy By].
  pose proof (fun E => coord_same w (nx e0) (nx e1) t Hw F1 F3 V1 E Ft Bt) as CX. pose proof (fun E => coord_same h (ny e0) (ny e1) t Hh F2 F4 V2 E Ft Bt) as CY.
  set (x := fadd (nx e0) (fmul t (fsub (nx e1) (nx e0)))) in *. set (y := fadd (ny e0) (fmul t (fsub (ny e1) (ny e0)))) in *. clearbody x y.
  destruct (_ && _); cbn [fst]; [|intros []]. destruct (_ && _); [|intros []]. intros [<-|[]].
  unfold on_border. cbn [nx ny]. split; [exact Fx|]. split; [exact Fy|]. split; [exact Bx|]. split; [exact By|].
  destruct AX as [E|E].
  - rewrite CX by (rewrite E; reflexivity). destruct V1; auto.
  - rewrite CY by (rewrite E; reflexivity). destruct V2; auto.
Qed.
Lemma corners_border w h points ints p : (0 <= w <= 1920)%Z -> (0 <= h <= 1920)%Z -> In p (corners_of w h points ints) -> on_border w h p.
Proof.
  intros Hw Hh. unfold corners_of. destruct ints as [|i0 t]; [intros []|]. intros I. apply in_concat in I. destruct I as (l & Il & Ip). apply in_map_iff in Il. destruct Il as ((e & (i & j)) & <- & Ie).
  apply in_combine_l in Ie. destruct (_ && _ && _); [|destruct Ip]. destruct Ip as [<-|[]]. destruct (edges_ok w h e Hw Hh Ie) as (_ & _ & [F1 V1] & [F2 V2]).
  assert (0 <= IZR w) by (apply IZR_le; lia). assert (0 <= IZR h) by (apply IZR_le; lia). unfold on_border. split; [exact F1|]. split; [exact F2|].
  split; [destruct V1 as [-> | ->]; lra|]. split; [destruct V2 as [-> | ->]; lra|]. destruct V1; auto.
Qed.

Lemma clip_fold_In w h l : forall st c, In c (fst (fold_left (clip_side w h) l st)) ->
  In c (fst st) \/ (exists ab, In ab l /\ ((c = fst ab /\ outside c w h = false) \/ exists e, In e (edges w h) /\ In c (fst (clip_edge (fst ab) (snd ab) e)))).
Proof.
  induction l as [|ab l IH]; cbn [fold_left]; intros st c I; [auto|].
  destruct (IH _ _ I) as [J|(x & Ix & Hx)]; [|right; exists x; split; [right; exact Ix|exact Hx]].
  destruct st as [poly ints], ab as [a b]. unfold clip_side in J. cbn [fst] in J. apply in_app_or in J. destruct J as [J|J].
  - destruct (outside a w h) eqn:O; [left; exact J|]. apply in_app_or in J. destruct J as [J|[<-|[]]]; [left; exact J|].
    right. exists (a, b). split; [left; reflexivity|]. left. auto.
  - apply in_concat in J. destruct J as (k & Ik & Ic). rewrite map_map in Ik. apply in_map_iff in Ik. destruct Ik as (e & <- & Ie).
    right. exists (a, b). split; [left; reflexivity|]. right. exists e. auto.
Qed.
Lemma clip_fold_keeps w h l : forall st c, In c (fst st) -> In c (fst (fold_left (clip_side w h) l st)).
Proof.
  induction l as [|ab l IH]; cbn [fold_left]; intros st c I; [exact I|]. apply IH. destruct st as [poly ints], ab as [a b]. unfold clip_side. cbn [fst] in *.
  apply in_or_app. left. destruct (outside a w h); [exact I|apply in_or_app; left; exact I].
Qed.
Lemma clip_fold_adds w h l : forall st ab, In ab l -> outside (fst ab) w h = false -> In (fst ab) (fst (fold_left (clip_side w h) l st)).
Proof.
  induction l as [|x l IH]; cbn [fold_left]; intros st ab I O; [destruct I|]. destruct I as [->|I]; [|apply IH; assumption].
  apply clip_fold_keeps. destruct st as [poly ints], ab as [a b]. unfold clip_side. cbn [fst] in *. rewrite O. apply in_or_app. left. apply in_or_app. right. left. reflexivity.
Qed.
Lemma sides_all points p : In p points -> exists ab, In ab (sides points) /\ fst ab = p.
Proof.
  destruct points as [|q t]; [intros []|]. intros I. unfold sides.
  assert (L : length (q :: t) = length (t ++ [q])) by (rewrite app_length; cbn; lia).
  assert (M : map fst (combine (q :: t) (t ++ [q])) = q :: t).
  { revert L. generalize (t ++ [q]). generalize (q :: t). clear. induction l as [|x l IH]; intros [|y k] L; try discriminate; [reflexivity|]. cbn. f_equal. apply IH. injection L as L. exact L. }
  rewrite <- M in I. apply in_map_iff in I. destruct I as (ab & E & I). eauto.
Qed.
Lemma clip_polygon_In w h points c : (0 <= w <= 1920)%Z -> (0 <= h <= 1920)%Z -> In c (clip_polygon w h points) ->
  (In c points /\ outside c w h = false) \/ on_border w h c.
Proof.
  intros Hw Hh. unfold clip_polygon. destruct (fold_left _ _ _) as [poly ints] eqn:E. intros I. apply in_app_or in I. destruct I as [I|I]; [|right; eapply corners_border; eauto].
  change poly with (fst (poly, ints)) in I. rewrite <- E in I. destruct (clip_fold_In _ _ _ _ _ I) as [[]|(ab & Iab & [[-> O]|(e & Ie & J)])].
  - left. split; [apply sides_fst, Iab|exact O].
  - right. eapply clip_edge_border; eauto.
Qed.
Lemma clip_polygon_has w h points c : In c points -> outside c w h = false -> In c (clip_polygon w h points).
Proof.
  intros I O. unfold clip_polygon. destruct (sides_all points c I) as (ab & Iab & <-). pose proof (clip_fold_adds w h (sides points) ([], [-1; -1; -1; -1]%Z) ab Iab O) as J.
  destruct (fold_left _ _ _) as [poly ints]. cbn [fst] in J. apply in_or_app. left. exact J.
Qed.

(* ---------------------------------------------------------------- *)
(** * The collected centres *)
Lemma npeq_R a b : fpfin a -> fpfin b -> npeq a b = true <-> R64 (nx a) = R64 (nx b) /\ R64 (ny a) = R64 (ny b).
Proof.
  intros [A1 A2] [B1 B2]. unfold npeq. rewrite andb_true_iff, !feq_R by assumption. 
  split; (intros [X Y]; split); revert X Y; repeat (case Req_bool_spec); intros; congruence || auto.
Qed.
Lemma npeq_sym a b : fpfin a -> fpfin b -> npeq a b = npeq b a.
Proof.
  intros A B. destruct (npeq b a) eqn:E; [apply (npeq_R b a B A) in E; apply (npeq_R a b A B); intuition|].
  destruct (npeq a b) eqn:E2; [|reflexivity]. apply (npeq_R a b A B) in E2. assert (npeq b a = true) by (apply (npeq_R b a B A); intuition). congruence.
Qed.

Fixpoint apart (l : list fpoint) : Prop := match l with [] => True | a :: t => Forall (fun b => npeq a b = false) t /\ apart t end.
Lemma apart_app l x : apart l -> Forall (fun a => npeq a x = false) l -> apart (l ++ [x]).
Proof.
  induction l as [|a l IH]; cbn [apart app]; intros A F; [split; [constructor|exact I]|]. inversion F as [|? ? F1 F2]; subst. destruct A as [A1 A2].
  split; [apply Forall_app; split; [exact A1|constructor; [exact F1|constructor]]|apply IH; assumption].
Qed.
Lemma collect_apart w h cs : forall st, apart (fst st) -> apart (fst (fold_left (collect w h) cs st)).
Proof.
  induction cs as [|c cs IH]; cbn [fold_left]; intros [pts clip] A; [exact A|]. apply IH. unfold collect. cbn [fst] in *.
  destruct (existsb (fun p => npeq p c) pts) eqn:E; [exact A|]. apply apart_app; [exact A|]. apply Forall_forall. intros a I.
  destruct (npeq a c) eqn:Q; [|reflexivity]. assert (existsb (fun p => npeq p c) pts = true) by (apply existsb_exists; exists a; auto). congruence.
Qed.
Lemma npeq_refl a : fpfin a -> npeq a a = true.
Proof. intros F. apply (npeq_R a a F F). auto. Qed.
Lemma collect_all w h cs : forall st c, (forall c, In c cs -> fpfin c) -> In c cs \/ (exists p, In p (fst st) /\ npeq p c = true) -> exists p, In p (fst (fold_left (collect w h) cs st)) /\ npeq p c = true.
Proof.
  induction cs as [|x cs IH]; cbn [fold_left]; intros [pts clip] c F H.
  - destruct H as [[]|H]. exact H.
  - apply IH; [intros y I; apply F; right; exact I|]. unfold collect. cbn [fst] in *. destruct H as [[<-|I]|(p & I & E)].
    + right. destruct (existsb (fun p => npeq p x) pts) eqn:E.
      * apply existsb_exists in E. destruct E as (p & I & E). eauto.
      * exists x. split; [apply in_or_app; right; left; reflexivity|]. apply npeq_refl, F. left. reflexivity.
    + left. exact I.
    + right. exists p. split; [|exact E]. destruct (existsb _ _); [exact I|apply in_or_app; left; exact I].
Qed.
Lemma apart_nth l : apart l -> Forall fpfin l -> forall i j x y, i <> j -> nth_error l i = Some x -> nth_error l j = Some y -> npeq x y = false.
Proof.
  intros A F. assert (G : forall l i j x y, apart l -> (i < j)%nat -> nth_error l i = Some x -> nth_error l j = Some y -> npeq x y = false).
  { clear. induction l as [|a l IH]; intros i j x y A L E1 E2; [destruct i; discriminate|]. destruct j as [|j]; [lia|]. cbn [nth_error] in E2. destruct A as [A1 A2]. destruct i as [|i].
    - injection E1 as ->. rewrite Forall_forall in A1. apply A1. eapply nth_error_In; exact E2.
    - cbn [nth_error] in E1. apply (IH i j x y A2); [lia|exact E1|exact E2]. }
  intros i j x y N E1 E2. destruct (Nat.lt_ge_cases i j) as [L|L]; [eapply G; eauto|].
  rewrite Forall_forall in F. rewrite npeq_sym by (apply F; eapply nth_error_In; eassumption). eapply (G l j i); eauto. lia.
Qed.

(** The computation of a cell panics only in a comparison of two different centres. *)
Theorem cell_panics srt w h p cs : sorter_ok srt -> Forall fpfin cs -> cell_from srt w h p cs = None ->
  exists c1 c2, In c1 cs /\ In c2 cs /\ npeq c1 c2 = false /\ around (NP (f64_of_Z (px p)) (f64_of_Z (py p))) c1 c2 = None.
Proof.
  intros SO F. unfold cell_from. pose proof (collect_in w h cs ([], false)) as IN. pose proof (collect_apart w h cs ([], false) I) as AP.
  destruct (fold_left (collect w h) cs ([], false)) as [points clip]. cbn [fst] in *.
  destruct (srt _ points) as [points'|] eqn:E1.
  - destruct clip; [|discriminate]. intros E2. apply (so_panic _ SO) in E2. destruct E2 as (i & j & x & y & _ & _ & _ & E). unfold around_second in E. destruct (around _ x y); discriminate.
  - intros _. apply (so_panic _ SO) in E1. destruct E1 as (i & j & x & y & N & Ex & Ey & E). exists x, y.
    assert (Q : forall z k, nth_error points k = Some z -> In z cs) by (intros z k Ez; destruct (IN z (nth_error_In _ _ Ez)) as [[]|J]; exact J).
    split; [eauto|]. split; [eauto|]. split; [|exact E]. eapply apart_nth; eauto. apply Forall_forall. intros z Iz. rewrite Forall_forall in F. apply F. destruct (IN z Iz) as [[]|J]; exact J.
Qed.

Theorem cell_vertices srt w h p cs poly : sorter_ok srt -> (0 <= w <= 1920)%Z -> (0 <= h <= 1920)%Z -> Forall fpfin cs -> cell_from srt w h p cs = Some poly ->
  (forall c, In c poly -> (In c cs /\ outside c w h = false) \/ (on_border w h c /\ exists c', In c' cs /\ outside c' w h = true)) /\
  (forall c, In c cs -> outside c w h = false -> exists c', In c' poly /\ npeq c' c = true).
Proof.
  intros SO Hw Hh F. unfold cell_from. pose proof (collect_in w h cs ([], false)) as IN. pose proof (collect_clip w h cs ([], false)) as CL.
  assert (AL : forall c, In c cs -> exists p, In p (fst (fold_left (collect w h) cs ([], false))) /\ npeq p c = true).
  { intros c Ic. apply collect_all; [apply Forall_forall, F|left; exact Ic]. }
  destruct (fold_left (collect w h) cs ([], false)) as [points clip]. cbn [fst snd orb] in *.
  destruct (srt _ points) as [points'|] eqn:E1; [|discriminate]. pose proof (so_perm _ SO _ _ _ E1) as P1.
  assert (IP : forall c, In c points' -> In c cs) by (intros c I; destruct (IN c ltac:(eapply Permutation_in; [apply Permutation_sym, P1|exact I])) as [[]|J]; exact J).
  destruct clip.
  - intros E2. apply (so_perm _ SO) in E2. symmetry in CL. apply existsb_exists in CL. split.
    + intros c I. eapply Permutation_in in I; [|apply Permutation_sym, E2]. destruct (clip_polygon_In _ _ _ _ Hw Hh I) as [[J O]|B]; [left; auto|]. right. split; [exact B|]. destruct CL as (x & Ix & Ox). eauto.
    + intros c I O. destruct (AL c I) as (q & Iq & E). exists q. split; [|exact E]. eapply Permutation_in; [exact E2|]. apply clip_polygon_has.
      * eapply Permutation_in; [exact P1|exact Iq].
      * destruct (IN q Iq) as [[]|Jq]. rewrite Forall_forall in F. apply (npeq_R q c (F q Jq) (F c I)) in E. destruct E as [EX EY].
        pose proof (F q Jq) as [Q1 Q2]. pose proof (F c I) as [C1 C2]. destruct epsilon_R as [Fe _]. destruct (fopp_R _ Fe) as [Fo _].
        destruct (limit_R w Hw) as [Fw _]. destruct (limit_R h Hh) as [Fh _]. unfold outside in *. rewrite !flt_R in * by assumption. rewrite EX, EY. exact O.
  - intros [= <-]. split.
    + intros c I. left. split; [apply IP, I|]. destruct (outside c w h) eqn:O; [|reflexivity]. symmetry in CL. rewrite <- CL. symmetry. apply existsb_exists. exists c. split; [apply IP, I|exact O].
    + intros c I O. destruct (AL c I) as (q & Iq & E). exists q. split; [|exact E]. eapply Permutation_in; [exact P1|exact Iq].
Qed.

(* ---------------------------------------------------------------- *)
(** * Locations of the image *)
Lemma limit_ge w : (0 <= w <= 1920)%Z -> IZR w <= R64 (fadd (f64_of_Z w) epsilon).
Proof.
  intros Hw. destruct (of_Z_R w ltac:(lia)) as [F E]. destruct epsilon_R as [Fe Be]. assert (B : 0 <= IZR w <= 1920) by (split; apply IZR_le; lia).
  assert (BB : Rabs (R64 (f64_of_Z w) + R64 epsilon) <= bpow radix2 11).
  { rewrite E. set (e := R64 epsilon) in *. clearbody e. rewrite b11. apply Rabs_le. lra. }
  destruct (fadd_R _ _ F Fe) as [F' E']; [eapply Rle_trans; [exact BB|apply bpow_le; lia]|]. rewrite E'. rewrite <- (rnd_Z w) at 1 by lia. apply rnd_le. rewrite E.
  set (e := R64 epsilon) in *. clearbody e. lra.
Qed.
Lemma rounded_le x y : x <= y -> rounded x <= rounded y.
Proof. intros H. apply rnd32_le, rnd_le, H. Qed.
Lemma rounded_Z z : (Z.abs z <= 2 ^ 24)%Z -> rounded (IZR z) = IZR z.
Proof. intros H. change (rounded (IZR z)) with (rnd32 (rnd (IZR z))). rewrite rnd_Z by lia. apply rnd32_Z, H. Qed.
Lemma rounded_range w X M : (0 < M)%Z -> (0 <= w <= 1920)%Z -> (0 <= X <= M * w)%Z -> 0 <= rounded (IZR X / IZR M) <= IZR w.
Proof.
  intros HM Hw HX. assert (PM : 0 < IZR M) by (apply IZR_lt; exact HM). split.
  - rewrite <- (rounded_Z 0) by lia. apply rounded_le. apply Rmult_le_pos; [apply IZR_le; lia|apply Rlt_le, Rinv_0_lt_compat, PM].
  - rewrite <- (rounded_Z w) by lia. apply rounded_le. apply Rmult_le_reg_r with (IZR M); [exact PM|]. unfold Rdiv. rewrite Rmult_assoc, Rinv_l, Rmult_1_r by lra.
    rewrite <- mult_IZR. apply IZR_le. lia.
Qed.
Lemma in_image_inside w h c X Y M : (0 < M)%Z -> (0 <= w <= 1920)%Z -> (0 <= h <= 1920)%Z -> loc_in_image w h X Y M -> at_rounded c X Y M -> outside c w h = false.
Proof.
  intros HM Hw Hh [HX HY] (F1 & F2 & E1 & E2). pose proof (rounded_range w X M HM Hw HX) as R1. pose proof (rounded_range h Y M HM Hh HY) as R2. rewrite <- E1 in R1. rewrite <- E2 in R2.
  destruct epsilon_R as [Fe Be]. destruct (fopp_R _ Fe) as [Fo Eo]. destruct (limit_R w Hw) as [Fw _]. destruct (limit_R h Hh) as [Fh _]. pose proof (limit_ge w Hw). pose proof (limit_ge h Hh).
  unfold outside. rewrite !flt_R by assumption. rewrite Eo. set (e := R64 epsilon) in *. clearbody e.
  rewrite !Rlt_bool_false by lra. reflexivity.
Qed.

(* ---------------------------------------------------------------- *)
(** * Rounding to pixels *)
Lemma round_coord x w : (0 <= w <= 1920)%Z -> fin x -> - 0.000100001 <= R64 x <= IZR w + 0.000100001 -> (0 <= go_int (fround x) <= w)%Z.
Proof.
  intros Hw F B. destruct (fround_R x F) as [F' E]. pose proof (Znearest_half (Zle_bool 0) (R64 x)) as N. fold (ZnearestA (R64 x)) in N. apply Rabs_le_inv in N.
  assert (L : (0 <= ZnearestA (R64 x) <= w)%Z).
  { split.
    - apply Z.lt_succ_r. apply lt_IZR. rewrite succ_IZR. lra.
    - apply Z.lt_succ_r. apply lt_IZR. rewrite succ_IZR. lra. }
  rewrite (go_int_small _ w); [|exact F'| |lia].
  - rewrite E, Ztrunc_IZR. exact L.
  - rewrite E, <- abs_IZR. apply IZR_le. lia.
Qed.

Lemma unit_coord x w : (1 <= w <= 1920)%Z -> in_unit x -> (0 <= i16 (render_coord x w) <= w)%Z.
Proof.
  intros Hw [F B]. destruct (of_Z_R w ltac:(lia)) as [Fw Ew]. assert (Bw : 1 <= IZR w <= 1920) by (split; apply IZR_le; lia).
  destruct (fmul_R x _ F Fw) as [Fm Em]; [apply Rle_trans with (bpow radix2 11); [rewrite b11, Ew; apply Rabs_le; split; nra|apply bpow_le; lia]|].
  assert (Q : 0 <= R64 (fmul x (f64_of_Z w)) <= IZR w).
  { rewrite Em, Ew. split; [rewrite <- rnd_0; apply rnd_le; nra|]. rewrite <- (rnd_Z w) at 2 by lia. apply rnd_le. nra. }
  unfold render_coord. pose proof (round_coord _ w ltac:(lia) Fm ltac:(lra)) as L. rewrite i16_small by lia. exact L.
Qed.

(** The cleaned polygon. *)
Lemma no_repeat_app l x : l <> [] -> no_repeat l -> last l x <> x -> no_repeat (l ++ [x]).
Proof.
  induction l as [|a l IH]; intros N R L; [contradiction|]. destruct l as [|b l]; [cbn in *; auto|]. cbn [app no_repeat] in *. destruct R as [R1 R2]. split; [exact R1|].
  apply IH; [discriminate|exact R2|exact L].
Qed.
Lemma push_spec l new : no_repeat l -> no_repeat (push_point l new) /\ push_point l new <> [].
Proof.
  intros R. destruct l as [|a l]; [cbn; split; [exact I|discriminate]|]. unfold push_point. destruct (peq (last (a :: l) new) new) eqn:E.
  - split; [exact R|discriminate].
  - split; [|destruct l; discriminate]. apply no_repeat_app; [discriminate|exact R|]. intros Q. rewrite Q in E. unfold peq in E. rewrite !Z.eqb_refl in E. discriminate.
Qed.
Lemma push_all l : forall acc, no_repeat acc -> no_repeat (fold_left push_point l acc) /\ (acc <> [] \/ l <> [] -> fold_left push_point l acc <> []).
Proof.
  induction l as [|p l IH]; cbn [fold_left]; intros acc R; [split; [exact R|intros [H|H]; [exact H|contradiction]]|].
  destruct (push_spec acc p R) as [R1 N1]. destruct (IH _ R1) as [R2 N2]. split; [exact R2|]. intros _. apply N2. left. exact N1.
Qed.
Lemma push_In l : forall acc p, In p (fold_left push_point l acc) -> In p acc \/ In p l.
Proof.
  induction l as [|q l IH]; cbn [fold_left]; intros acc p I; [auto|]. destruct (IH _ _ I) as [J|J]; [|right; right; exact J].
  unfold push_point in J. destruct acc as [|a acc]; [destruct J as [<-|[]]; right; left; reflexivity|]. destruct (peq _ _); [auto|]. apply in_app_or in J. destruct J as [J|[<-|[]]]; [auto|right; left; reflexivity].
Qed.
Lemma round_polygon_ok w h l : (0 <= w <= 1920)%Z -> (0 <= h <= 1920)%Z -> l <> [] -> Forall (in_frame w h) l ->
  round_polygon l <> [] /\ no_repeat (round_polygon l) /\ Forall (in_image w h) (round_polygon l).
Proof.
  intros Hw Hh N F. unfold round_polygon. destruct (push_all (map round_point l) [] I) as [R NE]. split; [apply NE; right; destruct l; [contradiction|discriminate]|]. split; [exact R|].
  apply Forall_forall. intros p J. destruct (push_In _ _ _ J) as [[]|K]. apply in_map_iff in K. destruct K as (c & <- & Ic). rewrite Forall_forall in F. destruct (F c Ic) as (F1 & F2 & B1 & B2).
  unfold in_image, round_point. cbn [px py]. split; apply round_coord; assumption.
Qed.
