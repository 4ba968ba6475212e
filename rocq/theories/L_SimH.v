(** Simulation of an evaluator by one that keeps objects (L_Sim, L_Hold), when the two
    agree only on objects that hold points. *)
From Coq Require Import ZArith List Bool Arith Lia Permutation.
From Flocq Require Import IEEE754.BinarySingleNaN.
From Verif Require Import GoNum M_Norm M_Slice M_Delaunay M_Algo S_Norm S_Algo M_Fitness S_Fitness L_Norm L_Slice L_PMap L_Algo L_Algo2 L_Algo3 L_Algo4 L_Algo5 L_Fit3 L_Sim L_Hold.
Import ListNotations.

(** The object position [i] evaluates when it is calculated. *)
Definition b_next {T} (next : option T -> option T -> list npoint -> list mut -> option T) (b : keeper T) (i : nat) (pts : list npoint) (muts : list mut) : option T :=
  match b_at b i with
  | None => None
  | Some (id, (tri, base)) => next tri (match base with None => None | Some b' => match nth_error (b_funs b) b' with None => None | Some g => fst g end end) pts muts
  end.

Section SimH.
Context {A T : Type} (next : option T -> option T -> list npoint -> list mut -> option T) (fit : T -> option f64)
  (holds : list npoint -> T -> Prop) (l : nat).
Hypothesis Hnew : forall base pts log d, okp l pts -> next None base pts log = Some d -> holds pts d.
Hypothesis Hkeep : forall d pts log, next (Some d) None pts log = Some d.
Hypothesis Hmod : forall q d q' o pts log d', okp l q -> holds q d -> okp l q' -> holds q' o -> okp l pts -> swaps_out q' pts log ->
  next (Some d) (Some o) pts log = Some d' -> holds pts d'.
Context (ea : evaluator A) (f : A -> keeper T) (ok : A -> Prop) (fine : T -> Prop).
Notation ev := (keep_ev next fit).
Hypothesis Hfine : forall pts d, okp l pts -> holds pts d -> fine d.
Hypothesis Scalc : forall a i pts log a' v, ok a -> (forall d, b_next next (f a) i pts log = Some d -> fine d) -> ev_calc ea a i pts log = Some (a', v) ->
  ok a' /\ ev_calc ev (f a) i pts log = Some (f a', v).
Hypothesis Supd : forall a i a', ok a -> ev_update ea a i = Some a' -> ok a' /\ ev_update ev (f a) i = Some (f a').
Hypothesis Sprep : forall a a', ok a -> ev_prepare ea a = Some a' -> ok a' /\ ev_prepare ev (f a) = Some (f a').
Hypothesis Sbase : forall a i j a', ok a -> ev_base ea a i j = Some a' -> ok a' /\ ev_base ev (f a) i j = Some (f a').
Hypothesis Sswap : forall a i j a', ok a -> ev_swap ea a i j = Some a' -> ok a' /\ ev_swap ev (f a) i j = Some (f a').
Notation F := (cmap f). Notation cokk := (cok ok).

Lemma pend_fine nb bp bd e i pts log d : basis holds l nb bp bd e -> pend holds l nb bp e i pts log -> b_next next e i pts log = Some d -> fine d.
Proof.
  intros B (Ok & id & tri & base & Ea & G & P). unfold b_next. rewrite Ea. intros En. apply (Hfine pts); [exact Ok|].
  destruct P as [(-> & ->)|[(-> & d0 & -> & Hh)|(j & jd & Hj & -> & Ej & Hs)]].
  - eapply Hnew; eauto.
  - rewrite Hkeep in En. injection En as <-. exact Hh.
  - destruct tri as [d0|]; [|eapply Hnew; eauto]. destruct (B j Hj) as (Oj & Hh & jd' & Bj). apply b_at_some in Bj as [B1 B2].
    rewrite Ej in B1. injection B1 as <-. rewrite B2 in En. cbn [fst] in En. destruct (G d0 eq_refl) as (q & Oq & Hq). exact (Hmod q d0 (bp j) (bd j) pts log d Oq Hq Oj Hh Ok Hs En).
Qed.

Lemma act_simh n lim nb bp bd c0 p c r a c' r' : (lim <= n)%nat ->
  (forall i, (i < lim)%nat -> pend holds l nb bp (c_ev c0) i (buf c0 (nth i (c_pop c0) 0%nat)) (nth i (c_muts c0) [])) ->
  ~ In a p -> (forall i, a = Calc i -> (i < lim)%nat) ->
  c_store (F c) = c_store c0 -> c_pop (F c) = c_pop c0 -> c_muts (F c) = c_muts c0 ->
  cinv fit holds l n lim nb bp bd c0 p (F c) r -> cokk c -> do_act ea (c, r) a = Some (c', r') -> cokk c' /\ do_act ev (F c, r) a = Some (F c', r').
Proof.
  intros Hlim HP Hna Hal S1 S2 S3 [W B O Td _] H. unfold do_act. destruct a as [|i|i].
  - change (c_ev (F c)) with (f (c_ev c)). destruct (ev_prepare ea (c_ev c)) as [e|] eqn:E; [|discriminate]. destruct (Sprep _ _ H E) as [H1 ->]. cbn [option_map]. intros [= <- <-]. split; [exact H1|reflexivity].
  - specialize (Hal i eq_refl). change (c_pop (F c)) with (c_pop c) in *. change (c_muts (F c)) with (c_muts c) in *. change (c_store (F c)) with (c_store c) in *.
    destruct (nth_error (c_pop c) i) as [a|] eqn:Ea; [|discriminate]. destruct (nth_error (c_muts c) i) as [m|] eqn:Em; [|discriminate].
    change (buf (F c) a) with (buf c a). change (c_ev (F c)) with (f (c_ev c)).
    destruct (ev_calc ea (c_ev c) i (buf c a) m) as [[e v]|] eqn:E; [|discriminate]. apply (Scalc _ _ _ _ _ _ H) in E as [H1 E].
    + rewrite E. cbn [option_map fst snd]. intros [= <- <-]. split; [exact H1|reflexivity].
    + intros d Ed. apply (pend_fine nb bp bd (f (c_ev c)) i (buf c a) m d B); [|exact Ed].
      replace (buf c a) with (buf c0 (nth i (c_pop c0) 0%nat)) by (unfold buf; rewrite S1, <- S2, (nth_error_nth _ _ 0%nat Ea); reflexivity).
      rewrite <- (nth_error_nth _ _ [] Em), S3.
      apply (pend_at holds l nb bp (c_ev c0)); [apply Td; [lia|exact Hna]|exact O|apply HP, Hal].
  - destruct (result r i) as [v|]; [|discriminate]. change (c_fits (F c)) with (c_fits c). destruct (put i v (c_fits c)) as [fs|]; [|discriminate]. change (c_ev (F c)) with (f (c_ev c)).
    destruct (ev_update ea (c_ev c) i) as [e|] eqn:E; [|discriminate]. destruct (Supd _ _ _ H E) as [H1 ->]. intros [= <- <-]. split; [exact H1|reflexivity].
Qed.

(** Both kinds of loops over a schedule, given what one action does. *)
Lemma acts_simh_aux {S S' : Type} (core_a : S -> core A) (core_b : S' -> core (keeper T)) (g : S -> S') (sa : S * results -> act -> option (S * results)) (sb : S' * results -> act -> option (S' * results))
  (run_a : list act -> S * results -> option (S * results)) (run_b : list act -> S' * results -> option (S' * results)) :
  (forall x, core_b (g x) = F (core_a x)) ->
  (forall x r a x' r', sb (x, r) a = Some (x', r') -> do_act ev (core_b x, r) a = Some (core_b x', r')) ->
  (forall x r a x' r', cokk (core_a x) -> sa (x, r) a = Some (x', r') ->
     (forall c1 r1, do_act ea (core_a x, r) a = Some (c1, r1) -> cokk c1 /\ do_act ev (F (core_a x), r) a = Some (F c1, r1)) ->
     cokk (core_a x') /\ sb (g x, r) a = Some (g x', r')) ->
  (forall x, run_a [] x = Some x) -> (forall a s x, run_a (a :: s) x = match sa x a with None => None | Some y => run_a s y end) ->
  (forall x, run_b [] x = Some x) -> (forall a s x, run_b (a :: s) x = match sb x a with None => None | Some y => run_b s y end) ->
  forall n lim nb bp bd c0 s, (nb <= n)%nat -> (lim <= n)%nat ->
  (forall i, (i < lim)%nat -> pend holds l nb bp (c_ev c0) i (buf c0 (nth i (c_pop c0) 0%nat)) (nth i (c_muts c0) [])) ->
  (forall i, (i < nb)%nat -> (i < lim)%nat -> buf c0 (nth i (c_pop c0) 0%nat) = bp i) ->
  forall p x r x' r', ordered (p ++ s) -> (forall i, In (Calc i) (p ++ s) -> (i < lim)%nat) ->
  prefix_inv ev c0 p (core_b (g x)) r -> cinv fit holds l n lim nb bp bd c0 p (core_b (g x)) r -> cokk (core_a x) -> run_a s (x, r) = Some (x', r') ->
  cokk (core_a x') /\ run_b s (g x, r) = Some (g x', r').
Proof.
  intros Hg Hb Hab Ra0 Ra1 Rb0 Rb1 n lim nb bp bd c0 s Hnb Hlim HP HB. induction s as [|a s IH]; intros p x r x' r' Ho Hc Hp Hi Hok.
  - rewrite Ra0, Rb0. intros [= <- <-]. auto.
  - rewrite Ra1, Rb1. destruct (sa (x, r) a) as [[x1 r1]|] eqn:Ea; [|discriminate]. intros H.
    replace (p ++ a :: s) with ((p ++ [a]) ++ s) in * by (rewrite <- app_assoc; reflexivity).
    pose proof Ho as [Hnd Ho']. assert (Hna : ~ In a p).
    { intros Hin. rewrite <- app_assoc in Hnd. apply NoDup_remove_2 in Hnd. apply Hnd, in_or_app. auto. }
    assert (Hal : forall i, a = Calc i -> (i < lim)%nat) by (intros i ->; apply Hc; apply in_or_app; left; apply in_or_app; right; left; reflexivity).
    pose proof Hp as ((S1 & S2 & _ & _ & S5 & _) & _).
    destruct (Hab x r a x1 r1 Hok Ea) as [Hok1 E1].
    { intros c1 r1' Ec. rewrite Hg in S1, S2, S5, Hi. apply (act_simh n lim nb bp bd c0 p (core_a x) r a c1 r1' Hlim HP Hna Hal S1 S2 S5 Hi Hok Ec). }
    rewrite E1. apply (IH (p ++ [a])); [exact Ho|exact Hc| | |exact Hok1|exact H].
    + apply do_act_inv with (c := core_b (g x)) (r := r); [| | |exact Hp|apply Hb, E1].
      * intros i ->. apply (Ho' p i s). rewrite <- app_assoc. reflexivity.
      * exact Hna.
      * intros i Hin. apply in_split in Hin as (l1 & l2 & ->). apply in_or_app. left.
        apply (Ho' l1 i ((l2 ++ [a]) ++ s)). rewrite <- !app_assoc. cbn [app]. rewrite <- ?app_assoc. reflexivity.
    + apply (act_hold next fit holds l Hnew Hkeep Hmod n lim nb bp bd c0 p (core_b (g x)) r a (core_b (g x1)) r1 Hnb Hlim HP HB Hna Hal S1 S2 S5 Hi). apply Hb, E1.
Qed.

Definition ready (n lim nb : nat) bp bd (c : core (keeper T)) : Prop :=
  (nb <= n)%nat /\ (lim <= n)%nat /\ wf n (c_ev c) /\ basis holds l nb bp bd (c_ev c) /\
  (forall i, (i < lim)%nat -> pend holds l nb bp (c_ev c) i (buf c (nth i (c_pop c) 0%nat)) (nth i (c_muts c) [])) /\
  (forall i, (i < nb)%nat -> (i < lim)%nat -> buf c (nth i (c_pop c) 0%nat) = bp i).
Lemma ready_cinv n lim nb bp bd c : ready n lim nb bp bd c -> cinv fit holds l n lim nb bp bd c [] c [].
Proof. intros (_ & _ & W & B & _). constructor; try assumption; try reflexivity. intros i _ []. Qed.
Lemma calc_lt lim s : valid_schedule lim s -> forall i, In (Calc i) s -> (i < lim)%nat.
Proof. intros [Hc _] i I. eapply count_occ_In in I. rewrite Hc in I. destruct (Nat.ltb_spec i lim); lia. Qed.

Lemma acts_simh n lim nb bp bd c s c' r : ready n lim nb bp bd (F c) -> valid_schedule lim s -> cokk c -> do_acts ea s (c, []) = Some (c', r) ->
  cokk c' /\ do_acts ev s (F c, []) = Some (F c', r).
Proof.
  intros R Hv Hok H. pose proof (valid_ordered _ _ Hv) as [Ho _]. pose proof R as (R1 & R2 & _ & _ & R5 & R6).
  refine (acts_simh_aux (fun x : core A => x) (fun x : core (keeper T) => x) F (do_act ea) (do_act ev) (do_acts ea) (do_acts ev) _ _ _ _ _ _ _ n lim nb bp bd (F c) s R1 R2 R5 R6 [] c [] c' r Ho (calc_lt lim s Hv) _ (ready_cinv _ _ _ _ _ _ R) Hok H); try reflexivity.
  - auto.
  - intros x q a x' q' Hx Ex K. apply (K x' q' Ex).
  - apply prefix_inv_0.
Qed.
Lemma g_acts_simh cutoff n lim nb bp bd g s g' r : ready n lim nb bp bd (F (g_core g)) -> valid_schedule lim s -> cokk (g_core g) -> g_acts ea cutoff s (g, []) = Some (g', r) ->
  cokk (g_core g') /\ g_acts ev cutoff s (gmap f g, []) = Some (gmap f g', r).
Proof.
  intros R Hv Hok H. pose proof (valid_ordered _ _ Hv) as [Ho _]. pose proof R as (R1 & R2 & _ & _ & R5 & R6).
  refine (acts_simh_aux (fun x : mgen A => g_core x) (fun x : mgen (keeper T) => g_core x) (gmap f) (g_act ea cutoff) (g_act ev cutoff) (g_acts ea cutoff) (g_acts ev cutoff) _ _ _ _ _ _ _ n lim nb bp bd (F (g_core g)) s R1 R2 R5 R6 [] g [] g' r Ho (calc_lt lim s Hv) _ (ready_cinv _ _ _ _ _ _ R) Hok H); try reflexivity.
  - intros x q a x' q' E. apply g_act_core in E. exact E.
  - intros x q a x' q' Hx Ex K. unfold g_act in Ex |- *. cbn [gmap g_core g_ben]. destruct (do_act ea (g_core x, q) a) as [[c1 r1]|] eqn:E; [|discriminate].
    destruct (K c1 r1 eq_refl) as [H1 ->]. destruct a as [|i|i]; try (injection Ex as <- <-; split; [exact H1|reflexivity]).
    destruct (get_base cutoff i) as [b|]; [|discriminate]. cbn [cmap c_fits c_muts]. destruct (b <? length (c_fits c1))%nat; [|discriminate].
    destruct (flt _ _); [|injection Ex as <- <-; split; [exact H1|reflexivity]].
    destruct (set_beneficial _ _ _ _ _); [|discriminate]. cbn [option_map] in *. injection Ex as <- <-. split; [exact H1|reflexivity].
  - apply prefix_inv_0.
Qed.

Lemma simple_step_simh cutoff mu s sw n c c' r : (cutoff <> 0)%nat -> shape n l (F c) -> in_square (F c) -> mutator_ok mu -> valid_schedule n s -> held fit holds l n (F c) ->
  cokk c -> simple_step ea cutoff mu s sw c = Some (c', r) -> cokk c' /\ simple_step ev cutoff mu s sw (F c) = Some (F c', r).
Proof.
  intros H0 Hs Hq Hmu Hv [W Hh] H. unfold simple_step. change (c_pop (F c)) with (c_pop c). destruct (new_generation ea mu cutoff (length (c_pop c)) c) as [c1|] eqn:E; [|discriminate].
  destruct (sim_gen ea ev f ok Sbase _ _ _ _ _ H E) as [H1 E1]. rewrite E1. pose proof (sh_pop _ _ _ Hs) as L. change (c_pop (F c)) with (c_pop c) in L. rewrite L in E1.
  pose proof (new_generation_shape ev mu cutoff n n l (F c) (F c1) H0 Hs Hq Hmu E1) as (G1 & G2 & G3 & G4 & G5 & G6 & G7 & G8 & _).
  destruct (generation_pend next fit holds l mu cutoff n n (F c) (F c1) H0 Hs Hq Hmu W (fun i _ Hi => Hh i Hi) (fun i Hi => holdsat_idle _ _ _ _ _ _ _ (Hh i Hi)) E1 (fun i => nth i (members (F c)) []) (fun _ => eq_refl)) as (bd & W1 & B1 & F1 & P1 & M1 & _).
  unfold simple_calc. change (c_pop (F c1)) with (c_pop c1). destruct (length (c_pop c1) =? 0)%nat; [discriminate|].
  destruct (do_acts ea s (c1, [])) as [[c2 r2]|] eqn:E2; [|discriminate].
  destruct (acts_simh n n cutoff (fun i => nth i (members (F c)) []) bd c1 s c2 r2) as [H2 ->]; [|exact Hv|exact H1|exact E2|].
  { split; [exact G8|]. split; [apply le_n|]. split; [exact W1|]. split; [exact B1|]. split; [exact P1|]. intros i Hi _. apply M1, Hi. }
  destruct (update_fitnesses ea sw c2) as [c3|] eqn:E3; [|discriminate]. destruct (sim_update ea ev f ok Sswap _ _ _ H2 E3) as [H3 ->]. cbn [option_map]. intros [= <- <-]. split; [exact H3|reflexivity].
Qed.
Variable inh : T.
Lemma init_ready groups e n c lim : (lim <= n)%nat -> f e = new_keeper T n -> init_core groups (f e) = Some (F c) -> length groups = n -> Forall (fun g => length g = l /\ Forall pt_in_unit g) groups ->
  ready n lim 0 (fun _ => []) (fun _ => inh) (F c).
Proof.
  intros Hlim Ef E1 L Hf. rewrite Ef in E1. pose proof (init_core_spec groups _ (F c) l E1 Hf) as (G1 & G2 & G3 & G4 & G5 & G6 & G7).
  split; [lia|]. split; [exact Hlim|]. split; [rewrite G5; apply new_keeper_wf|]. split; [intros j Hj; lia|]. split; [intros i Hi; apply (init_pend holds l groups n (F c) E1 L Hf); lia|intros i Hi; lia].
Qed.
Lemma new_simple_simh groups e s sw n c r : f e = new_keeper T n -> length groups = n -> Forall (fun g => length g = l /\ Forall pt_in_unit g) groups -> valid_schedule n s ->
  ok e -> new_simple ea groups e s sw = Some (c, r) -> cokk c /\ new_simple ev groups (f e) s sw = Some (F c, r).
Proof.
  intros Ef L Hf Hv H. unfold new_simple. destruct (init_core groups e) as [c1|] eqn:E; [|discriminate]. destruct (sim_init f ok _ _ _ H E) as [H1 E1]. rewrite E1.
  unfold simple_calc. change (c_pop (F c1)) with (c_pop c1). destruct (length (c_pop c1) =? 0)%nat; [discriminate|].
  destruct (do_acts ea s (c1, [])) as [[c2 r2]|] eqn:E2; [|discriminate].
  destruct (acts_simh n n 0 (fun _ => []) (fun _ => inh) c1 s c2 r2 (init_ready groups e n c1 n (le_n n) Ef E1 L Hf) Hv H1 E2) as [H2 ->].
  destruct (update_fitnesses ea sw c2) as [c3|] eqn:E3; [|discriminate]. destruct (sim_update ea ev f ok Sswap _ _ _ H2 E3) as [H3 ->]. cbn [option_map]. intros [= <- <-]. split; [exact H3|reflexivity].
Qed.

(** modifiedGenetic *)
Lemma combine_one_simh cutoff n bp bd i g r g' r' : (cutoff <> 0)%nat -> (cutoff <= i)%nat -> (i < n)%nat -> (cutoff <= n)%nat -> shape n l (g_core (gmap f g)) ->
  wf n (f (c_ev (g_core g))) -> basis holds l cutoff bp bd (f (c_ev (g_core g))) -> idle holds l (f (c_ev (g_core g))) i ->
  (forall b, (b < cutoff)%nat -> buf (g_core g) (nth b (c_pop (g_core g)) 0%nat) = bp b) -> ben_ok cutoff bp (g_ben g) ->
  cokk (g_core g) -> combine_one ea cutoff i (g, r) = Some (g', r') -> cokk (g_core g') /\ combine_one ev cutoff i (gmap f g, r) = Some (gmap f g', r').
Proof.
  intros H0 Hci Hi Hcn Hs W B Hid Hbp Hok H. unfold combine_one. cbn [gmap g_core g_ben cmap c_muts c_pop c_fits c_store c_ev].
  destruct (put i [] (c_muts (g_core g))) as [m0|]; [|discriminate]. destruct (get_base cutoff i) as [b|] eqn:Egb; [|discriminate]. destruct (nth_error (c_pop (g_core g)) i) as [a|] eqn:Ea; [|discriminate].
  unfold get_base in Egb. destruct (Nat.eqb_spec cutoff 0) as [|_]; [discriminate|]. injection Egb as <-. pose proof (Nat.mod_upper_bound i cutoff H0) as Hmb.
  destruct (nth_error (g_ben g) (i mod cutoff)) as [bm|] eqn:Ebm; [|discriminate].
  assert (Hbm : nth (i mod cutoff) (g_ben g) [] = bm) by (apply nth_error_nth, Ebm).
  destruct bm as [|b0 bt].
  { destruct (put i f0 (c_fits (g_core g))); [|discriminate]. cbn [option_map]. intros [= <- <-]. split; [exact H|reflexivity]. }
  set (bm := b0 :: bt) in *. destruct (Hok _ Hmb) as [Nd Hb]. rewrite Hbm in Nd, Hb.
  destruct (nth_error (c_pop (g_core g)) (i mod cutoff)) as [ab|] eqn:Eab; [|discriminate]. destruct (ev_base ea _ i (i mod cutoff)) as [e1|] eqn:E1; [|discriminate]. destruct (Sbase _ _ _ _ H E1) as [H1 E1']. rewrite E1'.
  assert (Har : (a < length (c_store (g_core g)))%nat) by (apply (sh_range _ _ _ Hs); right; apply in_or_app; left; apply (nth_error_In _ _ Ea)).
  unfold buf_set. destruct (length (nth a (c_store (g_core g)) []) =? length (nth ab (c_store (g_core g)) []))%nat; [|discriminate].
  rewrite nth_set_nth, Nat.eqb_refl, (proj2 (Nat.ltb_lt _ _) Har). cbn [andb].
  destruct (apply_muts _ _) as [pts|] eqn:Eap; [|discriminate].
  destruct (ev_calc ea e1 i pts _) as [[e2 v]|] eqn:E2; [|discriminate].
  assert (Hbb : nth ab (c_store (g_core g)) [] = bp (i mod cutoff)%nat) by (rewrite <- Hbp by exact Hmb; unfold buf; rewrite (nth_error_nth _ _ 0%nat Eab); reflexivity).
  rewrite Hbb in Eap.
  destruct (base_step next fit holds l n cutoff bp bd (f (c_ev (g_core g))) i (i mod cutoff) (f e1) W Hci Hi Hmb B E1') as (W1 & B1 & O1 & K1 & id & tri & base & jd & A1 & A2 & A3).
  destruct (B1 _ Hmb) as (Okb & _).
  assert (Hmm : forall m, In m (map fst bm) -> nth_error (bp (i mod cutoff)%nat) (m_idx m) = Some (m_old m) /\ pt_in_unit (m_new m)).
  { intros m I. apply in_map_iff in I as ([m' k] & <- & I). apply (Hb m' k I). }
  assert (Nd' : NoDup (map m_idx (map fst bm))) by (rewrite map_map; exact Nd).
  apply (Scalc _ _ _ _ _ _ H1) in E2 as [H2 E2].
  - rewrite E2. destruct (put i v _) as [fs|]; [|discriminate]. destruct (ev_update ea e2 i) as [e3|] eqn:E3; [|discriminate]. destruct (Supd _ _ _ H2 E3) as [H3 ->].
    intros [= <- <-]. split; [exact H3|reflexivity].
  - intros d Ed. apply (pend_fine cutoff bp bd (f e1) i pts (map fst bm) d B1); [|exact Ed].
    split; [apply (apply_okp l (map fst bm) (bp (i mod cutoff)%nat)); [exact Nd'|exact Okb|apply Forall_forall; intros m I; apply Hmm, I|exact Eap]|].
    exists id, tri, (Some jd). split; [exact A3|]. split.
    + destruct Hid as (id' & tri' & A1' & Gd). rewrite A1' in A1. injection A1 as <- <- <-. exact Gd.
    + right. right. exists (i mod cutoff)%nat, jd. split; [exact Hmb|]. split; [reflexivity|]. split; [rewrite O1; exact A2|].
      apply apply_swaps; [exact Nd'|intros m I; apply Hmm, I|exact Eap].
Qed.
Lemma combine_muts_simh cutoff n bp bd m : (cutoff <> 0)%nat -> (cutoff <= n)%nat -> forall i g r g' r', (cutoff <= i)%nat -> (i + m = n)%nat -> shape n l (g_core (gmap f g)) ->
  wf n (f (c_ev (g_core g))) -> basis holds l cutoff bp bd (f (c_ev (g_core g))) -> (forall k, (i <= k < n)%nat -> idle holds l (f (c_ev (g_core g))) k) ->
  (forall b, (b < cutoff)%nat -> buf (g_core g) (nth b (c_pop (g_core g)) 0%nat) = bp b) -> ben_ok cutoff bp (g_ben g) -> (forall b, NoDup (idxs (nth b (g_ben g) []))) ->
  cokk (g_core g) -> combine_muts ea cutoff m i (g, r) = Some (g', r') -> cokk (g_core g') /\ combine_muts ev cutoff m i (gmap f g, r) = Some (gmap f g', r').
Proof.
  intros H0 Hcn. induction m as [|m IH]; intros i g r g' r' Hci Him Hs W B Hid Hbp Hok Hnd H; cbn [combine_muts]; [intros [= <- <-]; auto|].
  destruct (combine_one ea cutoff i (g, r)) as [[g1 r1]|] eqn:E; [|discriminate].
  destruct (combine_one_simh cutoff n bp bd i g r g1 r1 H0 Hci ltac:(lia) Hcn Hs W B (Hid i ltac:(lia)) Hbp Hok H E) as [H1 E1]. rewrite E1.
  pose proof (combine_one_spec ev cutoff n l i (gmap f g) r (gmap f g1) r1 Hs ltac:(lia) E1) as (B1 & B2 & B3 & B4 & B5).
  assert (Hs1 : shape n l (g_core (gmap f g1))) by (apply (combined_shape ev n l cutoff (g_core (gmap f g)) (g_core (gmap f g1)) (g_ben g) i); try assumption; lia).
  pose proof B2 as (F1 & F2 & F3 & F4 & F5 & F6 & F7 & F8).
  destruct (combine_one_hold next fit holds l Hnew Hkeep Hmod cutoff n bp bd i (gmap f g) r (gmap f g1) r1 H0 Hci ltac:(lia) Hcn Hs W B (Hid i ltac:(lia)) Hbp Hok E1) as (W1 & C1 & K1 & D1 & R1).
  assert (Hkk : forall k, (k < n)%nat -> k <> i -> buf (g_core (gmap f g1)) (nth k (c_pop (g_core g)) 0%nat) = buf (g_core (gmap f g)) (nth k (c_pop (g_core g)) 0%nat)).
  { intros k Hk N. apply B3. intros Heq. apply (nth_pop_inj n l _ _ _ Hs) in Heq; lia. }
  apply IH; try assumption; try lia.
  - intros k Hk. destruct (Hid k ltac:(lia)) as (id & tri & X & Gd). exists id, tri. split; [|exact Gd]. change (f (c_ev (g_core g1))) with (c_ev (g_core (gmap f g1))). rewrite (K1 k) by lia. exact X.
  - intros b Hb. change (c_pop (g_core g1)) with (c_pop (g_core (gmap f g1))). rewrite F1. change (buf (g_core g1)) with (buf (g_core (gmap f g1))). change (c_pop (g_core (gmap f g))) with (c_pop (g_core g)). rewrite Hkk by lia. apply Hbp, Hb.
  - change (g_ben g1) with (g_ben (gmap f g1)). rewrite B1. exact Hok.
  - change (g_ben g1) with (g_ben (gmap f g1)). rewrite B1. exact Hnd.
Qed.

Lemma genetic_step_simh cutoff mu s sw n g g' r : (cutoff <> 0)%nat -> (2 * cutoff <= n)%nat -> shape n l (F (g_core g)) -> in_square (F (g_core g)) -> mutator_ok mu -> valid_schedule (n - cutoff) s ->
  length (g_ben g) = cutoff -> gheld fit holds l cutoff n (F (g_core g)) -> sorted (c_fits (g_core g)) ->
  cokk (g_core g) -> genetic_step ea cutoff mu s sw g = Some (g', r) -> cokk (g_core g') /\ genetic_step ev cutoff mu s sw (gmap f g) = Some (gmap f g', r).
Proof.
  destruct g as [c ben]. cbn [g_core g_ben]. intros H0 H2 Hs Hq Hmu Hv Hben (W & Hcnt & Hk) Hsort H. unfold genetic_step. cbn [gmap g_core g_ben].
  change (c_pop (F c)) with (c_pop c). pose proof (sh_pop _ _ _ Hs) as L. change (c_pop (F c)) with (c_pop c) in L. rewrite L.
  destruct (new_generation ea mu cutoff (n - cutoff) c) as [c1|] eqn:E; [|discriminate]. destruct (sim_gen ea ev f ok Sbase _ _ _ _ _ H E) as [H1 E1]. rewrite E1.
  pose proof (new_generation_shape ev mu cutoff (n - cutoff) n l (F c) (F c1) H0 Hs Hq Hmu E1) as (G1 & G2 & G3 & G4 & G5 & G6 & G7 & G8 & G9 & G10 & G11 & G12 & G13 & G14).
  assert (Htop : forall i, (i < cutoff)%nat -> (i < n)%nat -> holdsat fit holds l (c_ev (F c)) i (nth i (members (F c)) []) (nth i (c_fits (F c)) f0)).
  { intros i Hi Hn. destruct (Hk i Hn) as [[X _]|[X _]]; [exact X|]. exfalso. apply (top_positive cutoff (c_fits (F c)) i Hsort); rewrite ?(sh_fits _ _ _ Hs); try assumption. }
  assert (Hidl : forall i, (i < n)%nat -> idle holds l (c_ev (F c)) i) by (intros i Hi; destruct (Hk i Hi) as [[X _]|[_ X]]; [eapply holdsat_idle, X|exact X]).
  destruct (generation_pend next fit holds l mu cutoff (n - cutoff) n (F c) (F c1) H0 Hs Hq Hmu W Htop Hidl E1 (fun i => nth i (members (F c)) []) (fun _ => eq_refl)) as (bd & W1 & B1 & F1 & P1 & M1 & I1).
  unfold g_calc. cbn [g_core]. change (c_pop (F c1)) with (c_pop c1). pose proof (sh_pop _ _ _ G1) as L1. change (c_pop (F c1)) with (c_pop c1) in L1. rewrite L1. destruct (Nat.leb_spec n cutoff) as [|Hcn]; [discriminate|].
  destruct (g_acts ea cutoff s (MGen c1 (map (fun _ => []) ben), [])) as [[g2 r2]|] eqn:E2a; [|discriminate].
  destruct (g_acts_simh cutoff n (n - cutoff) cutoff (fun i => nth i (members (F c)) []) bd (MGen c1 (map (fun _ => []) ben)) s g2 r2) as [H3 E2]; [|exact Hv|exact H1|exact E2a|].
  { cbn [g_core]. split; [exact G8|]. split; [lia|]. split; [exact W1|]. split; [exact B1|]. split; [exact P1|]. intros i Hi _. apply M1, Hi. }
  unfold gmap in E2 at 1. cbn [g_core g_ben] in E2. rewrite E2.
  pose proof (g_acts_core ev cutoff s _ _ _ _ E2) as E2c. cbn [g_core] in E2c.
  pose proof (gather ev (n - cutoff) s (F c1) (g_core (gmap f g2)) r2 Hv E2c) as (Sc & T1 & _).
  destruct (acts_hold next fit holds l Hnew Hkeep Hmod n (n - cutoff) cutoff (fun i => nth i (members (F c)) []) bd (F c1) s (g_core (gmap f g2)) r2 G8 ltac:(lia) W1 B1 P1 (fun i Hi _ => M1 i Hi) Hv E2c) as (W2 & B2 & O2 & D2 & K2).
  apply (g_gather ev cutoff (n - cutoff) s (F c1) _ (gmap f g2) r2) in E2 as (imp & J1 & _ & _); [|exact H0|exact Hv|rewrite map_length; exact Hben|].
  2: { intros b. destruct (nth_in_or_default b (map (fun _ : bmuts => @nil (mut * nat)) ben) []) as [Hi|He]; [|exact He].
       apply in_map_iff in Hi as (x & Hx & _). symmetry. exact Hx. }
  destruct (valid_ordered _ _ Hv) as [_ Hrecv].
  destruct (combine_muts ea cutoff cutoff (n - cutoff) (g2, r2)) as [[g3 r3]|] eqn:E3; [|discriminate].
  assert (Hs2 : shape n l (g_core (gmap f g2))) by (apply (static_shape n l (F c1) _ Sc G1)).
  pose proof Sc as (S1 & S2 & S3 & S4 & S5 & S6 & S7 & S8).
  assert (Hnd : forall b, NoDup (idxs (nth b (g_ben g2) []))) by (intros b; apply (ben_nodup _ _ _ _ _ _ _ J1)).
  assert (Hbuf : forall a, buf (g_core (gmap f g2)) a = buf (F c1) a) by (intros a; unfold buf; rewrite S1; reflexivity).
  assert (Hok : ben_ok cutoff (fun i => nth i (members (F c)) []) (g_ben g2)).
  { intros b Hb. split; [apply Hnd|]. intros m i Hin. destruct J1 as [_ J1]. destruct (J1 b Hb) as (_ & Q & _). destruct (Q m i Hin) as (Q1 & Q2 & Q3 & Q4).
    apply Hrecv in Q1. rewrite (proj2 (G12 i ltac:(lia))) in Q4. unfold tlog in Q4. destruct (Nat.ltb_spec i cutoff) as [|Hi]; [destruct Q4|].
    assert (Hj : ((i - cutoff) mod cutoff = b)%nat). { rewrite <- Q2. replace i with ((i - cutoff) + 1 * cutoff)%nat at 2 by lia. rewrite Nat.mod_add by exact H0. reflexivity. }
    rewrite Hj in Q4. assert (Hu : Forall pt_in_unit (buf (F c) (nth b (c_pop (F c)) 0%nat))).
    { apply Hq. right. apply in_or_app. left. apply nth_In. rewrite (sh_pop _ _ _ Hs). lia. }
    destruct (Hmu i _ Hu) as [El Un]. rewrite members_nth by (rewrite (sh_pop _ _ _ Hs); lia).
    destruct (el_entry _ _ _ El m Q4) as [X1 X2]. split; [exact X1|]. apply nth_error_In in X2. rewrite Forall_forall in Un. apply Un, X2. }
  destruct (combine_muts_simh cutoff n (fun i => nth i (members (F c)) []) bd cutoff H0 G8 (n - cutoff) g2 r2 g3 r3) as [H4 ->]; try assumption; try lia.
  { intros k Hk'. destruct (I1 k ltac:(lia)) as (id & tri & X & Gd). exists id, tri. split; [|exact Gd]. change (f (c_ev (g_core g2))) with (c_ev (g_core (gmap f g2))). rewrite (K2 k) by lia. exact X. }
  { intros b Hb. change (buf (g_core g2)) with (buf (g_core (gmap f g2))). change (c_pop (g_core g2)) with (c_pop (g_core (gmap f g2))). rewrite Hbuf, S2. apply M1, Hb. }
  cbn [gmap g_core g_ben]. destruct (update_fitnesses ea sw (g_core g3)) as [c4|] eqn:E4; [|discriminate]. destruct (sim_update ea ev f ok Sswap _ _ _ H4 E4) as [H5 ->].
  cbn [option_map]. intros [= <- <-]. split; [exact H5|reflexivity].
Qed.
Lemma new_genetic_simh cutoff groups e s sw n g r : f e = new_keeper T n -> length groups = n -> Forall (fun g => length g = l /\ Forall pt_in_unit g) groups -> valid_schedule (n - cutoff) s ->
  ok e -> new_genetic ea cutoff groups e s sw = Some (g, r) -> cokk (g_core g) /\ new_genetic ev cutoff groups (f e) s sw = Some (gmap f g, r).
Proof.
  intros Ef L Hf Hv H. unfold new_genetic. destruct (init_core groups e) as [c1|] eqn:E; [|discriminate]. destruct (sim_init f ok _ _ _ H E) as [H1 E1]. rewrite E1.
  unfold g_calc. cbn [g_core]. change (c_pop (F c1)) with (c_pop c1). destruct (length (c_pop c1) <=? cutoff)%nat; [discriminate|].
  destruct (g_acts ea cutoff s (MGen c1 (repeat [] cutoff), [])) as [[g2 r2]|] eqn:E2; [|discriminate].
  destruct (g_acts_simh cutoff n (n - cutoff) 0 (fun _ => []) (fun _ => inh) (MGen c1 (repeat [] cutoff)) s g2 r2 (init_ready groups e n c1 (n - cutoff) ltac:(lia) Ef E1 L Hf) Hv H1 E2) as [H2 E2'].
  unfold gmap in E2' at 1. cbn [g_core g_ben] in E2'. rewrite E2'. cbn [gmap g_core g_ben].
  destruct (update_fitnesses ea sw (g_core g2)) as [c4|] eqn:E4; [|discriminate]. destruct (sim_update ea ev f ok Sswap _ _ _ H2 E4) as [H4 ->].
  cbn [option_map]. intros [= <- <-]. split; [exact H4|reflexivity].
Qed.
End SimH.
