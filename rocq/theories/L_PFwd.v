(** What returns without caches returns with them: the polygon functions. The evaluator
    without caches is restricted to diagrams whose polygons lie in the box of the cache's
    coordinates; the diagrams of a run all do. *)
From Coq Require Import ZArith List Bool Arith Lia Permutation.
From Flocq Require Import IEEE754.BinarySingleNaN.
From Verif Require Import GoNum M_Norm M_Slice M_Geom M_Image M_Raster S_Norm M_Delaunay M_Algo S_Algo M_Fitness S_Fitness M_Voronoi S_Voronoi M_Polygons S_Polygons
  L_Algo2 L_Fit L_Fit2 L_Fit3 L_Hold L_SimH L_Poly L_Poly2 L_Fwd.
Import ListNotations.
Open Scope Z_scope.

Definition small_b (v : ivor) : bool :=
  forallb (fun l => forallb (fun p => (0 <=? px p) && (px p <=? 32767) && (0 <=? py p) && (py p <=? 32767)) (fast_polygon l)) (iv_iter v).
Lemma small_b_ok v : small_b v = true <-> small_polys v.
Proof.
  unfold small_b, small_polys, in_box. rewrite forallb_forall. split; intros H l I; specialize (H l I).
  - apply Forall_forall. intros p Ip. rewrite forallb_forall in H. specialize (H p Ip). rewrite !andb_true_iff, !Z.leb_le in H. lia.
  - apply forallb_forall. intros p Ip. rewrite Forall_forall in H. specialize (H p Ip). rewrite !andb_true_iff, !Z.leb_le. lia.
Qed.
Definition fit2 (im : fimg) (v : ivor) : option f64 := if small_b v then plain_pfitness im v else None.
Lemma fit2_small im v : small_polys v -> fit2 im v = plain_pfitness im v.
Proof. intros H. unfold fit2. rewrite (proj2 (small_b_ok v) H). reflexivity. Qed.
Lemma fit2_some im v f : fit2 im v = Some f -> plain_pfitness im v = Some f /\ small_polys v.
Proof. unfold fit2. destruct (small_b v) eqn:E; [|discriminate]. apply small_b_ok in E. auto. Qed.

Section Par.
Context (im : fimg) (srt : sorter) (hsrt : point -> list point -> option (list point)) (N : Z) (n : nat).
Hypothesis HN : (2 <= N < 2 ^ 63)%Z.
Notation ea := (pparallel im srt hsrt). Notation next := (next_vor im srt hsrt). Notation eb := (vor_ev im srt hsrt).
Notation e2 := (keep_ev next (fit2 im)).

Lemma calc2 b i pts log b' v : ev_calc e2 b i pts log = Some (b', v) -> ev_calc eb b i pts log = Some (b', v) /\ forall d, b_next next b i pts log = Some d -> small_polys d.
Proof.
  unfold vor_ev, b_next. cbn [keep_ev ev_calc]. destruct (b_at b i) as [[id [tri base]]|]; [|discriminate]. destruct (match base with Some b' => _ | None => false end); [discriminate|]. cbv zeta.
  destruct (next tri _ pts log) as [d|]; [|discriminate]. destruct (fit2 im d) as [f|] eqn:E; [|discriminate]. apply fit2_some in E as [E S]. rewrite E. cbn [option_map]. intros [= <- <-].
  split; [reflexivity|]. intros d' [= <-]. exact S.
Qed.
Lemma calc2_sim p i pts muts p' v : ppar_ok im p -> (forall d, b_next next (pstrip p) i pts muts = Some d -> small_polys d) -> ev_calc ea p i pts muts = Some (p', v) ->
  ppar_ok im p' /\ ev_calc e2 (pstrip p) i pts muts = Some (pstrip p', v).
Proof.
  intros O S E. destruct (pcalc_sim im srt hsrt p i pts muts p' v O S E) as [O' E']. split; [exact O'|]. revert E' S. clear. unfold vor_ev, b_next. cbn [keep_ev ev_calc].
  destruct (b_at (pstrip p) i) as [[id [tri base]]|]; [|discriminate]. destruct (match base with Some b' => _ | None => false end); [discriminate|]. cbv zeta.
  destruct (next tri _ pts muts) as [d|]; [|discriminate]. intros E S. rewrite (fit2_small im d (S d eq_refl)). exact E.
Qed.

Definition qlive (p : ppar) (dl : list bool) : Prop := ppar_ok im p /\ exists D, pturn_ok N D p /\ map D (pp_order p) = dl.
Lemma qlive_step p fs o b dl dl' : qlive p dl -> (forall i pts muts d, o = OCalc i pts muts -> b_next next (pstrip p) i pts muts = Some d -> small_polys d) ->
  turn dl o = Some dl' -> eop_step eb (pstrip p, fs) o = Some b ->
  exists p' fs', eop_step ea (p, fs) o = Some (p', fs') /\ b = (pstrip p', fs') /\ qlive p' dl'.
Proof.
  intros (O & D & T & <-) S Tn E. destruct (pstep_turn im srt hsrt N D p fs o b dl' HN O S T Tn E) as (p' & fs' & D' & E1 & T' & M').
  destruct (pstep_sim im srt hsrt p fs o p' fs' O S E1) as [O' E2]. exists p', fs'. split; [exact E1|]. split; [congruence|]. split; [exact O'|]. exists D'. auto.
Qed.
Lemma qlive_calc p dl i pts log b v : qlive p dl -> nth_error dl i = Some false -> ev_calc e2 (pstrip p) i pts log = Some (b, v) ->
  exists p', ev_calc ea p i pts log = Some (p', v) /\ pstrip p' = b /\ qlive p' (set_nth i true dl).
Proof.
  intros O Ed E. apply calc2 in E as [E S]. destruct (qlive_step p [] (OCalc i pts log) (b, [v]) dl (set_nth i true dl) O) as (p' & fs' & E1 & E2 & O').
  - intros i' pts' muts' d [= <- <- <-]. apply S.
  - cbn [turn]. rewrite Ed. reflexivity.
  - unfold eop_step. rewrite E. reflexivity.
  - injection E2 as -> <-. exists p'. unfold eop_step in E1. destruct (ev_calc ea p i pts log) as [[q u]|]; [|discriminate]. cbn [option_map fst snd app] in E1. injection E1 as -> ->. auto.
Qed.
Lemma qlive_upd p dl i b : qlive p dl -> nth_error dl i = Some true -> ev_update e2 (pstrip p) i = Some b ->
  exists p', ev_update ea p i = Some p' /\ pstrip p' = b /\ qlive p' (set_nth i false dl).
Proof.
  intros O Ed E. change (ev_update eb (pstrip p) i = Some b) in E. destruct (qlive_step p [] (OUpdate i) (b, []) dl (set_nth i false dl) O) as (p' & fs' & E1 & E2 & O').
  - discriminate.
  - cbn [turn]. rewrite Ed. reflexivity.
  - unfold eop_step. rewrite E. reflexivity.
  - injection E2 as -> <-. exists p'. unfold eop_step in E1. destruct (ev_update ea p i) as [q|]; [|discriminate]. cbn [option_map] in E1. injection E1 as ->. auto.
Qed.
Lemma qlive_prep p dl b : qlive p dl -> ev_prepare e2 (pstrip p) = Some b -> exists p', ev_prepare ea p = Some p' /\ pstrip p' = b /\ qlive p' dl.
Proof.
  intros O E. change (ev_prepare eb (pstrip p) = Some b) in E. destruct (qlive_step p [] OPrepare (b, []) dl dl O) as (p' & fs' & E1 & E2 & O').
  - discriminate.
  - reflexivity.
  - unfold eop_step. rewrite E. reflexivity.
  - injection E2 as -> <-. exists p'. unfold eop_step in E1. destruct (ev_prepare ea p) as [q|]; [|discriminate]. cbn [option_map] in E1. injection E1 as ->. auto.
Qed.
Lemma qlive_base p dl i j b : qlive p dl -> ev_base e2 (pstrip p) i j = Some b -> exists p', ev_base ea p i j = Some p' /\ pstrip p' = b /\ qlive p' dl.
Proof.
  intros O E. change (ev_base eb (pstrip p) i j = Some b) in E. destruct (qlive_step p [] (OBase i j) (b, []) dl dl O) as (p' & fs' & E1 & E2 & O').
  - discriminate.
  - reflexivity.
  - unfold eop_step. rewrite E. reflexivity.
  - injection E2 as -> <-. exists p'. unfold eop_step in E1. destruct (ev_base ea p i j) as [q|]; [|discriminate]. cbn [option_map] in E1. injection E1 as ->. auto.
Qed.
Lemma qlive_swap p i j b : qlive p (clean n) -> ev_swap e2 (pstrip p) i j = Some b -> exists p', ev_swap ea p i j = Some p' /\ pstrip p' = b /\ qlive p' (clean n).
Proof.
  intros O E. change (ev_swap eb (pstrip p) i j = Some b) in E. destruct (qlive_step p [] (OSwap i j) (b, []) (clean n) (clean n) O) as (p' & fs' & E1 & E2 & O').
  - discriminate.
  - cbn [turn]. unfold vor_ev in E. cbn [keep_ev ev_swap pstrip b_order] in E. destruct (swap_at i j (pp_order p)) as [o|] eqn:Eo; [|discriminate].
    destruct O as (_ & D & _ & M). assert (L : length (pp_order p) = n) by (rewrite <- (map_length D), M; apply repeat_length).
    unfold swap_at in Eo. destruct (nth_error (pp_order p) i) eqn:Ei; [|discriminate]. destruct (nth_error (pp_order p) j) eqn:Ej; [|discriminate].
    apply clean_swap; rewrite <- L; apply nth_error_Some; congruence.
  - unfold eop_step. rewrite E. reflexivity.
  - injection E2 as -> <-. exists p'. unfold eop_step in E1. destruct (ev_swap ea p i j) as [q|]; [|discriminate]. cbn [option_map] in E1. injection E1 as ->. auto.
Qed.
End Par.
Lemma new_qlive im n k : qlive im (Z.of_nat (Nat.pow 2 k)) (new_pparallel n k) (clean n).
Proof.
  split; [apply new_pparallel_ok|]. exists (fun _ => false). split; [apply new_pturn_ok|]. cbn [new_pparallel pp_order]. unfold clean.
  generalize 0%nat. induction n as [|n IH]; intros a; [reflexivity|]. cbn [seq map repeat]. f_equal. apply IH.
Qed.

(** What was held without the restriction is held with it. *)
Section Held.
Context (im : fimg) (holds : list npoint -> ivor -> Prop) (l : nat).
Hypothesis Hs : forall pts d, okp l pts -> holds pts d -> small_polys d.
Lemma holdsat2 b i pts f : holdsat (plain_pfitness im) holds l b i pts f <-> holdsat (fit2 im) holds l b i pts f.
Proof.
  unfold holdsat. split; intros (O & id & d & A & B & C); split; try exact O; exists id, d.
  - rewrite fit2_small by (eapply Hs; eauto). auto.
  - apply fit2_some in C as [C _]. auto.
Qed.
End Held.
