(** The triangulations kept by the fitness functions are Delaunay tilings (C59) and the
    operations on them return (C60). *)
From Coq Require Import ZArith Reals List Bool Arith Lia Lra Permutation.
From Flocq Require Import Core IEEE754.BinarySingleNaN.
From Verif Require Import GoNum M_Norm M_Slice M_Geom S_Geom M_Image S_Image M_Raster S_Raster M_Delaunay S_Delaunay S_Remove M_Algo M_Fitness S_Fitness S_Norm FloatLemmas
  L_Slice L_Geom L_PMap L_Super L_Slots L_Slots2 L_Plane L_BW L_Insert L_Lookup L_Score L_Remove L_Reach L_Hold L_Tri L_Tiles P_Delaunay P_Remove P_Fitness.
Import ListNotations.
Open Scope Z_scope.

Lemma alike_sym d e : alike d e -> alike e d.
Proof. unfold alike. intuition congruence. Qed.
Lemma alike_trans a b c : alike a b -> alike b c -> alike a c.
Proof. unfold alike. intuition congruence. Qed.

Section Del.
Context (im : fimg) (srt : point -> list point -> option (list point)) (l : nat).
Hypothesis Hsize : usual_size (fi_w im) (fi_h im).
Hypothesis Hperm : forall p q q', srt p q = Some q' -> Permutation q q'.
Hypothesis Hsort : sorts_hulls srt.
Hypothesis Hl : Z.of_nat l <= 32765.
Notation w := (fi_w im). Notation h := (fi_h im). Notation mp := (mut_point im).

Definition tracks (P : list point) (d d0 : delaunay) : Prop := built w h P d0 /\ dstate_ok w h P d0 /\ alike d d0.
Definition del_of (pts : list npoint) (d : delaunay) : Prop := exists P d0, tracks P d d0 /\ Permutation P (map mp pts).
Lemma del_tri pts d : del_of pts d -> tri_of im pts d.
Proof. intros (P & d0 & (B & _ & A) & Pm). exists P, d0. auto. Qed.
Lemma ssize : small_size w h. Proof. apply usual_small, Hsize. Qed.
Lemma sok : size_ok w h. Proof. apply small_ok, ssize. Qed.

Lemma insert_tracks P d d0 p : tracks P d d0 -> in_image w h p -> Z.of_nat (length P) < 32765 -> exists d' d0', insert d p = Some d' /\ tracks (p :: P) d' d0'.
Proof.
  intros (B & O & A) Hp L. pose proof (distinct_le (p :: P)) as DL. cbn [length] in DL. pose proof (mult_length l P p) as M.
  destruct (insert_ok w h P d0 p sok O Hp (small_complete w h P d0 p ssize O Hp)) as (e & E & O1); [lia|lia|].
  destruct (insert_alike _ _ _ _ (alike_sym _ _ A) E) as (d' & E' & A'). exists d', e. split; [exact E'|]. split; [|split; [exact O1|apply alike_sym, A']].
  eapply built_insert; [exact B|exact Hp|lia|exact E].
Qed.
Lemma remove_tracks P d d0 p P' : tracks P d d0 -> take_out p P = Some P' -> Z.of_nat (length P) <= 32765 -> exists d' d0', remove (srt p) d p = Some d' /\ tracks P' d' d0'.
Proof.
  intros (B & O & A) T L. pose proof (take_out_spec _ _ _ T) as TP. pose proof (distinct_le P) as DL.
  assert (Hp : in_image w h p) by (apply (ds_in _ _ _ _ O); eapply Permutation_in; [exact TP|left; reflexivity]).
  destruct (remove_ok w h P d0 p P' (srt p) ssize O Hp T (Hsort p)) as (e & E & O1); [lia|].
  destruct (remove_alike _ _ _ _ _ (alike_sym _ _ A) E) as (d' & E' & A'). exists d', e. split; [exact E'|]. split; [|split; [exact O1|apply alike_sym, A']].
  eapply built_remove; [exact B|exact Hp|exact T|apply Hperm|exact E].
Qed.
Lemma inserts_tracks {A} (f : A -> point) pts : forall P d d0, tracks P d d0 -> Forall (fun a => in_image w h (f a)) pts -> Z.of_nat (length P + length pts) <= 32765 ->
  exists P' d' d0', foldM (fun d a => insert d (f a)) pts d = Some d' /\ tracks P' d' d0' /\ Permutation P' (P ++ map f pts).
Proof.
  induction pts as [|a pts IH]; intros P d d0 K F L; cbn [foldM map].
  - exists P, d, d0. rewrite app_nil_r. auto.
  - inversion F as [|x y F1 F2]; subst x y. cbn [length] in L. destruct (insert_tracks P d d0 (f a) K F1 ltac:(lia)) as (d1 & e1 & E1 & K1). rewrite E1.
    destruct (IH (f a :: P) d1 e1 K1 F2 ltac:(cbn [length]; lia)) as (P' & d' & d0' & E2 & K2 & Pm). exists P', d', d0'. split; [exact E2|]. split; [exact K2|].
    rewrite Pm. cbn [app]. apply Permutation_middle.
Qed.
Lemma removes_tracks {A} (f : A -> point) ms : forall P rest d d0, tracks P d d0 -> Permutation P (map f ms ++ rest) -> Z.of_nat (length P) <= 32765 ->
  exists P' d' d0', foldM (fun d a => remove (srt (f a)) d (f a)) ms d = Some d' /\ tracks P' d' d0' /\ Permutation P' rest.
Proof.
  induction ms as [|a ms IH]; intros P rest d d0 K Pm L; cbn [foldM map].
  - exists P, d, d0. auto.
  - destruct (take_out_In (f a) P) as (P' & T). { eapply Permutation_in; [apply Permutation_sym, Pm|left; reflexivity]. }
    destruct (remove_tracks P d d0 (f a) P' K T L) as (d1 & e1 & E1 & K1). rewrite E1. apply take_out_spec in T.
    apply (IH P' rest d1 e1 K1).
    + apply (Permutation_cons_inv (a := f a)). rewrite T. exact Pm.
    + apply Permutation_length in T. cbn [length] in T. lia.
Qed.

Lemma del_new_ex base pts log : okp l pts -> exists d, next_tri im srt None base pts log = Some d /\ del_of pts d.
Proof.
  intros [L F]. unfold next_tri. destruct (new_delaunay_ok w h sok) as (d0 & E & O). rewrite E.
  destruct (inserts_tracks mp pts [] d0 d0) as (P & d' & e & E1 & K & Pm).
  - split; [apply built_new, E|]. split; [exact O|repeat split].
  - apply okp_image; [exact sok|exact F].
  - cbn [length]. lia.
  - exists d'. split; [exact E1|]. exists P, e. auto.
Qed.
Lemma del_mod_ex q d q' o pts log : okp l q -> del_of q d -> okp l q' -> del_of q' o -> okp l pts -> swaps_out q' pts log ->
  exists d', next_tri im srt (Some d) (Some o) pts log = Some d' /\ del_of pts d'.
Proof.
  intros [L1 F1] (P1 & e1 & (B1 & O1 & A1) & Pm1) [L2 F2] (P2 & e2 & (B2 & O2 & A2) & Pm2) [L3 F3] (rest & S1 & S2). unfold next_tri.
  destruct (d_set_total _ _ _ _ _ _ _ _ B1 A1 B2 A2) as (d1 & E1). rewrite E1. pose proof (d_set_alike _ _ _ _ _ _ _ _ _ B1 A1 B2 A2 E1) as A3.
  assert (G2 : Forall (fun m => in_image w h (mp (m_new m))) log).
  { apply Forall_forall. intros m Hm. apply point_in_image; [exact sok|]. rewrite Forall_forall in F3. apply F3. eapply Permutation_in; [apply Permutation_sym, S2|]. apply in_or_app; left. apply in_map, Hm. }
  assert (Q1 : Permutation P2 (map (fun m => mp (m_old m)) log ++ map mp rest)) by (rewrite Pm2, S1, map_app, map_map; reflexivity).
  assert (LP : Z.of_nat (length P2) <= 32765) by (rewrite (Permutation_length Pm2), map_length; lia).
  destruct (removes_tracks (fun m => mp (m_old m)) log P2 (map mp rest) d1 e2 (conj B2 (conj O2 A3)) Q1 LP) as (P3 & d2 & e3 & E2 & K3 & Q2). rewrite E2.
  assert (Q3 : Permutation (map mp pts) (map (fun m => mp (m_new m)) log ++ map mp rest)) by (rewrite S2, map_app, map_map; reflexivity).
  assert (LL : Z.of_nat (length P3 + length log) <= 32765).
  { rewrite (Permutation_length Q2), map_length. apply Permutation_length in S2. rewrite app_length, map_length in S2. lia. }
  destruct (inserts_tracks (fun m => mp (m_new m)) log P3 d2 e3 K3 G2 LL) as (P4 & d' & e4 & E3 & K4 & Q4).
  exists d'. split; [exact E3|]. exists P4, e4. split; [exact K4|]. rewrite Q4, Q3, Q2. apply Permutation_app_comm.
Qed.

Lemma del_new base pts log d : okp l pts -> next_tri im srt None base pts log = Some d -> del_of pts d.
Proof. intros Ok E. destruct (del_new_ex base pts log Ok) as (d' & E' & D). rewrite E in E'. injection E' as <-. exact D. Qed.
Lemma del_keep d pts log : next_tri im srt (Some d) None pts log = Some d. Proof. reflexivity. Qed.
Lemma del_mod q d q' o pts log d' : okp l q -> del_of q d -> okp l q' -> del_of q' o -> okp l pts -> swaps_out q' pts log ->
  next_tri im srt (Some d) (Some o) pts log = Some d' -> del_of pts d'.
Proof. intros A B C D E F G. destruct (del_mod_ex q d q' o pts log A B C D E F) as (d2 & E2 & K). rewrite G in E2. injection E2 as <-. exact K. Qed.
Lemma del_tnew base pts log : okp l pts -> exists d, next_tri im srt None base pts log = Some d.
Proof. intros Ok. destruct (del_new_ex base pts log Ok) as (d' & E' & D). eauto. Qed.
Lemma del_tmod q d q' o pts log : okp l q -> del_of q d -> okp l q' -> del_of q' o -> okp l pts -> swaps_out q' pts log ->
  exists d', next_tri im srt (Some d) (Some o) pts log = Some d'.
Proof. intros A B C D E F. destruct (del_mod_ex q d q' o pts log A B C D E F) as (d2 & E2 & K). eauto. Qed.
End Del.
