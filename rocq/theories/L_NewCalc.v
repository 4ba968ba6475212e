(** The first evaluation calculates every member's object anew. *)
From Coq Require Import ZArith List Bool Arith Lia Permutation.
From Flocq Require Import IEEE754.BinarySingleNaN.
From Verif Require Import GoNum M_Norm M_Slice M_Delaunay M_Algo S_Norm S_Algo M_Fitness S_Fitness L_Norm L_Slice L_PMap L_Algo L_Algo2 L_Algo3 L_Algo4 L_Algo5 L_Fit3 L_Hold.
Import ListNotations.

Lemma acts_split {A} (ev : evaluator A) p : forall q c r z, do_acts ev (p ++ q) (c, r) = Some z -> exists c1 r1, do_acts ev p (c, r) = Some (c1, r1) /\ do_acts ev q (c1, r1) = Some z.
Proof.
  induction p as [|a p IH]; intros q c r z; cbn [app do_acts]; [eauto|]. destruct (do_act ev (c, r) a) as [[c1 r1]|]; [|discriminate]. apply IH.
Qed.
Lemma ordered_prefix p q : ordered (p ++ q) -> ordered p.
Proof.
  intros [Nd H]. split.
  { clear H. induction p as [|a p IH]; [constructor|]. cbn [app] in Nd. inversion Nd as [|? ? Na Nr]; subst. constructor; [intros I; apply Na, in_or_app; auto|apply IH, Nr]. }
  intros l1 i l2 E. apply (H l1 i (l2 ++ q)). rewrite E, <- app_assoc. reflexivity.
Qed.

Section New.
Context {T : Type} (next : option T -> option T -> list npoint -> list mut -> option T) (fit : T -> option f64)
  (holds : list npoint -> T -> Prop) (l : nat).
Notation okp := (okp l).
Hypothesis Hnew : forall base pts log d, okp pts -> next None base pts log = Some d -> holds pts d.
Hypothesis Hkeep : forall d pts log, next (Some d) None pts log = Some d.
Hypothesis Hmod : forall q d q' o pts log d', okp q -> holds q d -> okp q' -> holds q' o -> okp pts -> swaps_out q' pts log ->
  next (Some d) (Some o) pts log = Some d' -> holds pts d'.
Notation ev := (keep_ev next fit).
Notation basis := (basis holds l). Notation pend := (pend holds l).

Lemma acts_calc n lim nb bp bd c s z i id : (nb <= n)%nat -> (lim <= n)%nat -> wf n (c_ev c) -> basis nb bp bd (c_ev c) ->
  (forall i, (i < lim)%nat -> pend nb bp (c_ev c) i (buf c (nth i (c_pop c) 0%nat)) (nth i (c_muts c) [])) ->
  (forall i, (i < nb)%nat -> (i < lim)%nat -> buf c (nth i (c_pop c) 0%nat) = bp i) ->
  valid_schedule lim s -> do_acts ev s (c, []) = Some z -> (i < lim)%nat -> b_at (c_ev c) i = Some (id, (None, None)) ->
  exists d, next None None (buf c (nth i (c_pop c) 0%nat)) (nth i (c_muts c) []) = Some d.
Proof.
  intros Hnb Hlim W B HP HB Hv Hd Hi Ei. pose proof (valid_ordered _ _ Hv) as [Ho _].
  assert (Hcalc : forall i, In (Calc i) s <-> (i < lim)%nat).
  { intros k. destruct Hv as [Hc _]. erewrite count_occ_In. rewrite Hc. destruct (Nat.ltb_spec k lim); lia. }
  destruct (in_split _ _ (proj2 (Hcalc i) Hi)) as (p & q & ->). apply acts_split in Hd as (c1 & r1 & Ep & Eq).
  pose proof (ordered_prefix _ _ Ho) as Op.
  assert (Hn : ~ In (Calc i) p) by (destruct Ho as [Nd _]; apply NoDup_remove_2 in Nd; intros I; apply Nd, in_or_app; auto).
  pose proof (acts_hold_aux next fit holds l Hnew Hkeep Hmod n lim nb bp bd c p Hnb Hlim HP HB [] c [] c1 r1 Op) as K.
  assert (C0 : cinv fit holds l n lim nb bp bd c [] c []) by (constructor; try assumption; try reflexivity; intros k _ []).
  specialize (K (fun k Hk => proj1 (Hcalc k) (in_or_app p _ _ (or_introl Hk))) (prefix_inv_0 ev c) C0 Ep). cbn [app] in K.
  assert (Hs : c_store c1 = c_store c /\ c_pop c1 = c_pop c /\ c_muts c1 = c_muts c).
  { clear - Ep. change (do_acts ev p (c, @nil (nat * f64) : results) = Some (c1, r1)) in Ep. revert Ep. generalize (@nil (nat * f64) : results). intros r Ep. revert c r Ep. induction p as [|a p IH]; intros c r; cbn [do_acts]; [intros [= <- <-]; auto|].
    destruct (do_act ev (c, r) a) as [[c2 r2]|] eqn:E; [|discriminate]. intros H. destruct (IH _ _ H) as (-> & -> & ->).
    unfold do_act in E. destruct a as [|i|i].
    - destruct (ev_prepare ev (c_ev c)); [|discriminate]. injection E as <- <-. auto.
    - destruct (nth_error (c_pop c) i); [|discriminate]. destruct (nth_error (c_muts c) i); [|discriminate]. destruct (ev_calc ev _ i _ _) as [[? ?]|]; [|discriminate]. injection E as <- <-. auto.
    - destruct (result r i); [|discriminate]. destruct (put i f (c_fits c)); [|discriminate]. destruct (ev_update ev _ i); [|discriminate]. injection E as <- <-. auto. }
  destruct Hs as (S1 & S2 & S3). cbn [do_acts] in Eq. destruct (do_act ev (c1, r1) (Calc i)) as [y|] eqn:E; [|discriminate]. clear Eq.
  unfold do_act in E. rewrite S2, S3 in E. destruct (nth_error (c_pop c) i) as [a|] eqn:Ea; [|discriminate]. destruct (nth_error (c_muts c) i) as [m|] eqn:Em; [|discriminate].
  unfold buf in E. rewrite S1 in E. cbn [keep_ev ev_calc] in E. rewrite (ci_todo _ _ _ _ _ _ _ _ _ _ _ _ K i ltac:(lia) Hn), Ei in E. cbv zeta in E.
  rewrite (nth_error_nth _ _ 0%nat Ea), (nth_error_nth _ _ [] Em). unfold buf. destruct (next None None _ m); [eauto|discriminate].
Qed.
Variable inh : T.
Lemma new_simple_calc groups s sw n z : length groups = n -> Forall (fun g => length g = l /\ Forall pt_in_unit g) groups -> valid_schedule n s ->
  new_simple ev groups (new_keeper T n) s sw = Some z -> forall i, (i < n)%nat -> exists d, next None None (nth i groups []) [] = Some d.
Proof.
  intros L Hf Hv E i Hi. unfold new_simple in E. destruct (init_core groups (new_keeper T n)) as [c1|] eqn:E1; [|discriminate].
  pose proof (init_core_spec groups _ c1 l E1 Hf) as (G1 & G2 & G3 & G4 & G5 & G6 & G7). rewrite L in G1, G6.
  unfold simple_calc in E. rewrite (sh_pop _ _ _ G1) in E. destruct (Nat.eqb_spec n 0) as [|_]; [lia|].
  destruct (do_acts ev s (c1, [])) as [y|] eqn:Ed; [|discriminate].
  pose proof (init_pend holds l groups n c1 E1 L Hf (fun _ => [])) as P1.
  destruct (acts_calc n n 0 (fun _ => []) (fun _ => inh) c1 s y i i (Nat.le_0_l n) (le_n n)) as (d & E2); try assumption.
  - rewrite G5. apply new_keeper_wf.
  - intros j Hj. lia.
  - intros j Hj. lia.
  - rewrite G5. apply new_keeper_at, Hi.
  - exists d. rewrite <- members_nth in E2 by (rewrite (sh_pop _ _ _ G1); exact Hi). rewrite G3, G6, nth_repeat in E2. exact E2.
Qed.
Lemma new_genetic_calc cutoff groups s sw n z : length groups = n -> Forall (fun g => length g = l /\ Forall pt_in_unit g) groups -> valid_schedule (n - cutoff) s ->
  new_genetic ev cutoff groups (new_keeper T n) s sw = Some z -> forall i, (i < n - cutoff)%nat -> exists d, next None None (nth i groups []) [] = Some d.
Proof.
  intros L Hf Hv E i Hi. unfold new_genetic in E. destruct (init_core groups (new_keeper T n)) as [c1|] eqn:E1; [|discriminate].
  pose proof (init_core_spec groups _ c1 l E1 Hf) as (G1 & G2 & G3 & G4 & G5 & G6 & G7). rewrite L in G1, G6.
  unfold g_calc in E. cbn [g_core] in E. rewrite (sh_pop _ _ _ G1) in E. destruct (Nat.leb_spec n cutoff) as [|_]; [lia|].
  destruct (g_acts ev cutoff s (MGen c1 (repeat [] cutoff), [])) as [[g2 r2]|] eqn:Eg; [|discriminate].
  apply g_acts_core in Eg. cbn [g_core] in Eg.
  pose proof (init_pend holds l groups n c1 E1 L Hf (fun _ => [])) as P1.
  destruct (acts_calc n (n - cutoff) 0 (fun _ => []) (fun _ => inh) c1 s (g_core g2, r2) i i (Nat.le_0_l n) ltac:(lia)) as (d & E2); try assumption.
  - rewrite G5. apply new_keeper_wf.
  - intros j Hj. lia.
  - intros j Hj. apply P1. lia.
  - intros j Hj. lia.
  - rewrite G5. apply new_keeper_at. lia.
  - exists d. rewrite <- members_nth in E2 by (rewrite (sh_pop _ _ _ G1); lia). rewrite G3, G6, nth_repeat in E2. exact E2.
Qed.
End New.
