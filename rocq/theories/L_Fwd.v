(** The caches make no algorithm panic: what runs without them runs with them. *)
From Coq Require Import ZArith List Bool Arith Lia Permutation.
From Verif Require Import GoNum M_Norm M_Slice M_Delaunay M_Algo M_Fitness S_Fitness L_Slice L_PMap L_Algo2 L_Sim L_Fit L_Fit2.
Import ListNotations.

(** The positions calculated since their last update, after the event [a]. *)
Definition dirt (dl : list bool) (a : act) : option (list bool) :=
  match a with
  | Prep => Some dl
  | Calc i => match nth_error dl i with Some false => Some (set_nth i true dl) | _ => None end
  | Recv i => match nth_error dl i with Some true => Some (set_nth i false dl) | _ => None end
  end.
Fixpoint dirts (s : list act) (dl : list bool) : option (list bool) :=
  match s with [] => Some dl | a :: s' => match dirt dl a with None => None | Some dl' => dirts s' dl' end end.
Definition act_eqb (a b : act) : bool := match a, b with Prep, Prep => true | Calc i, Calc j | Recv i, Recv j => (i =? j)%nat | _, _ => false end.
Lemma act_eqb_eq a b : act_eqb a b = true <-> a = b.
Proof. destruct a, b; cbn; rewrite ?Nat.eqb_eq; split; congruence. Qed.
Definition inb (a : act) (p : list act) : bool := existsb (act_eqb a) p.
Lemma inb_In a p : inb a p = true <-> In a p.
Proof. unfold inb. rewrite existsb_exists. split; [intros (x & I & E); apply act_eqb_eq in E; congruence|intros I; exists a; split; [exact I|apply act_eqb_eq; reflexivity]]. Qed.
Lemma inb_snoc a p b : inb a (p ++ [b]) = inb a p || act_eqb a b.
Proof. unfold inb. rewrite existsb_app. cbn [existsb]. rewrite orb_false_r. reflexivity. Qed.
Definition open_at (p : list act) (i : nat) : bool := inb (Calc i) p && negb (inb (Recv i) p).
Definition opens (n : nat) (p : list act) : list bool := map (open_at p) (seq 0 n).
Lemma nth_opens n p i : (i < n)%nat -> nth_error (opens n p) i = Some (open_at p i).
Proof. intros H. unfold opens. rewrite nth_error_map, (nth_error_nth' _ 0%nat) by (rewrite seq_length; exact H). rewrite seq_nth by exact H. reflexivity. Qed.
Lemma opens_set n p q i b : (i < n)%nat -> open_at q i = b -> (forall k, k <> i -> open_at q k = open_at p k) -> set_nth i b (opens n p) = opens n q.
Proof.
  intros Hi <- H. apply nth_error_ext. intros k. rewrite nth_error_set_nth. assert (L : length (opens n p) = n) by (unfold opens; rewrite map_length; apply seq_length).
  destruct (Nat.lt_ge_cases k n) as [Hk|Hk].
  - rewrite !nth_opens by exact Hk. destruct (Nat.eqb_spec i k) as [->|N]; [rewrite L, (proj2 (Nat.ltb_lt _ _) Hk); reflexivity|rewrite H by congruence; reflexivity].
  - rewrite (proj2 (nth_error_None (opens n p) k)) by lia. rewrite (proj2 (nth_error_None (opens n q) k)) by (unfold opens; rewrite map_length, seq_length; lia).
    destruct (Nat.eqb_spec i k); [lia|reflexivity].
Qed.
Lemma dirts_ordered n s : forall p, ordered (p ++ s) -> (forall i, In (Calc i) (p ++ s) -> (i < n)%nat) -> dirts s (opens n p) = Some (opens n (p ++ s)).
Proof.
  induction s as [|a s IH]; intros p Ho Hc; cbn [dirts]; [rewrite app_nil_r; reflexivity|].
  replace (p ++ a :: s) with ((p ++ [a]) ++ s) in * by (rewrite <- app_assoc; reflexivity).
  rewrite <- (IH (p ++ [a]) Ho Hc). pose proof Ho as [Hnd Hb].
  assert (Hna : ~ In a p) by (intros Hin; rewrite <- app_assoc in Hnd; apply NoDup_remove_2 in Hnd; apply Hnd, in_or_app; auto).
  assert (Hrc : forall i, In (Recv i) p -> In (Calc i) p).
  { intros i Hi. apply in_split in Hi as (l1 & l2 & ->). apply in_or_app. left. apply (Hb l1 i ((l2 ++ [a]) ++ s)). rewrite <- !app_assoc. cbn [app]. rewrite <- ?app_assoc. reflexivity. }
  destruct a as [|i|i]; cbn [dirt].
  - f_equal. unfold opens. apply map_ext. intros i. unfold open_at. rewrite !inb_snoc. cbn [act_eqb]. rewrite !orb_false_r. reflexivity.
  - assert (Hi : (i < n)%nat) by (apply Hc, in_or_app; left; apply in_or_app; right; left; reflexivity).
    assert (Ho1 : inb (Calc i) p = false) by (apply not_true_iff_false; rewrite inb_In; exact Hna).
    assert (Ho2 : inb (Recv i) p = false) by (apply not_true_iff_false; rewrite inb_In; intros I; apply Hna, Hrc, I).
    rewrite nth_opens by exact Hi. unfold open_at at 1. rewrite Ho1. cbn [andb]. rewrite (opens_set n p (p ++ [Calc i]) i true Hi); [reflexivity| |].
    + unfold open_at. rewrite !inb_snoc, Ho2. cbn [act_eqb]. rewrite Nat.eqb_refl, !orb_true_r. reflexivity.
    + intros k N. unfold open_at. rewrite !inb_snoc. cbn [act_eqb]. apply Nat.eqb_neq in N. rewrite N, !orb_false_r. reflexivity.
  - assert (Hci : In (Calc i) p) by (apply (Hb p i s); rewrite <- app_assoc; reflexivity).
    assert (Hi : (i < n)%nat) by (apply Hc, in_or_app; left; apply in_or_app; left; exact Hci).
    assert (Ho2 : inb (Recv i) p = false) by (apply not_true_iff_false; rewrite inb_In; exact Hna).
    rewrite nth_opens by exact Hi. unfold open_at at 1. rewrite Ho2, (proj2 (inb_In _ _) Hci). cbn [andb negb]. rewrite (opens_set n p (p ++ [Recv i]) i false Hi); [reflexivity| |].
    + unfold open_at. rewrite !inb_snoc. cbn [act_eqb]. rewrite Nat.eqb_refl, orb_true_r, andb_false_r. reflexivity.
    + intros k N. unfold open_at. rewrite !inb_snoc. cbn [act_eqb]. apply Nat.eqb_neq in N. rewrite N, !orb_false_r. reflexivity.
Qed.
Definition clean (n : nat) : list bool := repeat false n.
Lemma opens_clean n p : (forall i, (i < n)%nat -> open_at p i = false) -> opens n p = clean n.
Proof.
  intros H. unfold opens, clean. apply nth_error_ext. intros k. destruct (Nat.lt_ge_cases k n) as [Hk|Hk].
  - pose proof (nth_opens n p k Hk) as E. unfold opens in E. rewrite E, H by exact Hk. symmetry. apply nth_error_repeat, Hk.
  - rewrite !(proj2 (nth_error_None _ _)); [reflexivity|rewrite repeat_length; lia|rewrite map_length, seq_length; lia].
Qed.
Lemma dirts_schedule lim n s : (lim <= n)%nat -> valid_schedule lim s -> dirts s (clean n) = Some (clean n).
Proof.
  intros Hl Hv. pose proof (valid_ordered _ _ Hv) as [Ho Hr].
  assert (Hc : forall i, In (Calc i) s <-> (i < lim)%nat) by (intros i; destruct Hv as [Hc _]; erewrite count_occ_In; rewrite Hc; destruct (Nat.ltb_spec i lim); lia).
  rewrite <- (opens_clean n []) at 1 by reflexivity. rewrite (dirts_ordered n s []) by (first [exact Ho|cbn [app]; intros i Hi; apply Hc in Hi; lia]).
  cbn [app]. f_equal. apply opens_clean. intros i Hi. unfold open_at. destruct (inb (Calc i) s) eqn:E; [|reflexivity]. apply inb_In, Hc, Hr, inb_In in E. rewrite E. reflexivity.
Qed.
Lemma clean_set n i b : set_nth i false (set_nth i b (clean n)) = clean n.
Proof.
  apply nth_error_ext. intros k. rewrite !nth_error_set_nth, set_nth_length. unfold clean. rewrite repeat_length. destruct (Nat.eqb_spec i k) as [->|]; [|reflexivity].
  destruct (Nat.ltb_spec k n); [symmetry; apply nth_error_repeat; assumption|symmetry; apply nth_error_None; rewrite repeat_length; lia].
Qed.
Lemma clean_nth n i : (i < n)%nat -> nth_error (clean n) i = Some false.
Proof. apply nth_error_repeat. Qed.
Lemma clean_swap n i j : (i < n)%nat -> (j < n)%nat -> swap_at i j (clean n) = Some (clean n).
Proof.
  intros Hi Hj. unfold swap_at. rewrite !clean_nth by assumption. f_equal. apply nth_error_ext. intros k. rewrite !nth_error_set_nth, ?set_nth_length. unfold clean. rewrite repeat_length.
  destruct (Nat.eqb_spec j k); [subst k; rewrite (proj2 (Nat.ltb_lt _ _) Hj); symmetry; apply nth_error_repeat, Hj|].
  destruct (Nat.eqb_spec i k); [subst k; rewrite (proj2 (Nat.ltb_lt _ _) Hi); symmetry; apply nth_error_repeat, Hi|reflexivity].
Qed.

Section Fwd.
Context {A B : Type} (ea : evaluator A) (eb : evaluator B) (f : A -> B) (live : A -> list bool -> Prop) (n : nat).
Hypothesis Fcalc : forall a dl i pts log b v, live a dl -> nth_error dl i = Some false -> ev_calc eb (f a) i pts log = Some (b, v) ->
  exists a', ev_calc ea a i pts log = Some (a', v) /\ f a' = b /\ live a' (set_nth i true dl).
Hypothesis Fupd : forall a dl i b, live a dl -> nth_error dl i = Some true -> ev_update eb (f a) i = Some b ->
  exists a', ev_update ea a i = Some a' /\ f a' = b /\ live a' (set_nth i false dl).
Hypothesis Fprep : forall a dl b, live a dl -> ev_prepare eb (f a) = Some b -> exists a', ev_prepare ea a = Some a' /\ f a' = b /\ live a' dl.
Hypothesis Fbase : forall a dl i j b, live a dl -> ev_base eb (f a) i j = Some b -> exists a', ev_base ea a i j = Some a' /\ f a' = b /\ live a' dl.
Hypothesis Fswap : forall a i j b, live a (clean n) -> ev_swap eb (f a) i j = Some b -> exists a', ev_swap ea a i j = Some a' /\ f a' = b /\ live a' (clean n).

Notation F := (cmap f).
Definition alive (c : core A) : Prop := live (c_ev c) (clean n).

Lemma fwd_copy i j c k : copy_member i j (F c) = Some k -> exists c', copy_member i j c = Some c' /\ F c' = k /\ c_ev c' = c_ev c.
Proof.
  unfold copy_member. cbn [cmap c_newpop c_pop c_muts c_store].
  destruct (nth_error (c_newpop c) i) as [a|]; [|discriminate]. destruct (nth_error (c_pop c) j) as [b|]; [|discriminate]. destruct (put i [] (c_muts c)); [|discriminate].
  destruct (buf_set (c_store c) a b); [|discriminate]. cbn [option_map]. intros [= <-]. eexists. split; [reflexivity|]. split; reflexivity.
Qed.
Lemma fwd_new mu i j c k : alive c -> new_member eb mu i j (F c) = Some k -> exists c', new_member ea mu i j c = Some c' /\ F c' = k /\ alive c'.
Proof.
  intros H. unfold new_member. destruct (copy_member i j (F c)) as [k1|] eqn:E; [|discriminate]. destruct (fwd_copy i j c k1 E) as (c1 & -> & <- & V).
  cbn [cmap c_ev c_newpop]. destruct (ev_base eb (f (c_ev c1)) i j) as [e|] eqn:Eb; [|discriminate].
  unfold alive in H. rewrite <- V in H. destruct (Fbase _ _ _ _ _ H Eb) as (a' & -> & <- & H2).
  destruct (nth_error (c_newpop c1) i) as [x|]; [|discriminate]. unfold buf. change (c_store (F c1)) with (c_store c1). destruct (mu i (nth x (c_store c1) [])). intros [= <-].
  eexists. split; [reflexivity|]. split; [reflexivity|exact H2].
Qed.
Lemma fwd_keep m : forall i c k, keep_bases m i (F c) = Some k -> exists c', keep_bases m i c = Some c' /\ F c' = k /\ c_ev c' = c_ev c.
Proof.
  induction m as [|m IH]; intros i c k; cbn [keep_bases]; [intros [= <-]; eauto|].
  destruct (copy_member i i (F c)) as [k1|] eqn:E; [|discriminate]. destruct (fwd_copy i i c k1 E) as (c1 & -> & <- & V). intros H. destruct (IH _ _ _ H) as (c' & E' & X & V'). exists c'. split; [exact E'|]. split; [exact X|congruence].
Qed.
Lemma fwd_inner mu m : forall j i lim c k i', alive c -> inner_loop eb mu m j i lim (F c) = Some (k, i') -> exists c', inner_loop ea mu m j i lim c = Some (c', i') /\ F c' = k /\ alive c'.
Proof.
  induction m as [|m IH]; intros j i lim c k i' H; cbn [inner_loop]; [intros [= <- <-]; eauto|].
  destruct (i <? lim)%nat; [|intros [= <- <-]; eauto]. destruct (new_member eb mu i j (F c)) as [k1|] eqn:E; [|discriminate].
  destruct (fwd_new mu i j c k1 H E) as (c1 & -> & <- & H1). apply IH, H1.
Qed.
Lemma fwd_outer mu cutoff lim m : forall i c k, alive c -> outer_loop eb m mu cutoff i lim (F c) = Some k -> exists c', outer_loop ea m mu cutoff i lim c = Some c' /\ F c' = k /\ alive c'.
Proof.
  induction m as [|m IH]; intros i c k H; cbn [outer_loop]; destruct (i <? lim)%nat; try discriminate; try (intros [= <-]; eauto; fail).
  destruct (inner_loop eb mu cutoff 0 i lim (F c)) as [[k1 i1]|] eqn:E; [|discriminate]. destruct (fwd_inner mu cutoff 0 i lim c k1 i1 H E) as (c1 & -> & <- & H1). apply IH, H1.
Qed.
Lemma fwd_gen mu cutoff lim c k : alive c -> new_generation eb mu cutoff lim (F c) = Some k -> exists c', new_generation ea mu cutoff lim c = Some c' /\ F c' = k /\ alive c'.
Proof.
  intros H. unfold new_generation. destruct (keep_bases cutoff 0 (F c)) as [k1|] eqn:E; [|discriminate]. destruct (fwd_keep _ _ _ _ E) as (c1 & -> & <- & V).
  destruct (outer_loop eb lim mu cutoff cutoff lim (F c1)) as [k2|] eqn:E2; [|discriminate].
  unfold alive in H. rewrite <- V in H. destruct (fwd_outer _ _ _ _ _ _ _ H E2) as (c2 & -> & <- & H2).
  intros [= <-]. eexists. split; [reflexivity|]. split; [reflexivity|exact H2].
Qed.
Lemma fwd_act c r a k r' dl dl' : live (c_ev c) dl -> dirt dl a = Some dl' -> do_act eb (F c, r) a = Some (k, r') ->
  exists c', do_act ea (c, r) a = Some (c', r') /\ F c' = k /\ live (c_ev c') dl'.
Proof.
  intros H. unfold do_act. destruct a as [|i|i]; cbn [cmap c_ev c_pop c_muts c_fits c_store dirt].
  - intros [= <-]. destruct (ev_prepare eb (f (c_ev c))) as [e|] eqn:E; [|discriminate]. destruct (Fprep _ _ _ H E) as (a' & -> & <- & H1). cbn [option_map]. intros [= <- <-].
    eexists. split; [reflexivity|]. split; [reflexivity|exact H1].
  - destruct (nth_error dl i) as [[|]|] eqn:Ed; try discriminate. intros [= <-].
    destruct (nth_error (c_pop c) i) as [x|]; [|discriminate]. destruct (nth_error (c_muts c) i) as [m|]; [|discriminate]. unfold buf. cbn [cmap c_store].
    destruct (ev_calc eb (f (c_ev c)) i _ _) as [[e v]|] eqn:E; [|discriminate]. destruct (Fcalc _ _ _ _ _ _ _ H Ed E) as (a' & -> & <- & H1). cbn [option_map fst snd]. intros [= <- <-].
    eexists. split; [reflexivity|]. split; [reflexivity|exact H1].
  - destruct (nth_error dl i) as [[|]|] eqn:Ed; try discriminate. intros [= <-].
    destruct (result r i) as [v|]; [|discriminate]. destruct (put i v (c_fits c)); [|discriminate]. destruct (ev_update eb (f (c_ev c)) i) as [e|] eqn:E; [|discriminate].
    destruct (Fupd _ _ _ _ H Ed E) as (a' & -> & <- & H1). intros [= <- <-]. eexists. split; [reflexivity|]. split; [reflexivity|exact H1].
Qed.
Lemma fwd_acts s : forall c r k r' dl dl', live (c_ev c) dl -> dirts s dl = Some dl' -> do_acts eb s (F c, r) = Some (k, r') ->
  exists c', do_acts ea s (c, r) = Some (c', r') /\ F c' = k /\ live (c_ev c') dl'.
Proof.
  induction s as [|a s IH]; intros c r k r' dl dl' H; cbn [do_acts dirts]; [intros [= <-] [= <- <-]; eauto|].
  destruct (dirt dl a) as [dl1|] eqn:Ed; [|discriminate]. intros Ed'.
  destruct (do_act eb (F c, r) a) as [[k1 r1]|] eqn:E; [|discriminate]. destruct (fwd_act _ _ _ _ _ _ _ H Ed E) as (c1 & -> & <- & H1). apply IH with (1 := H1), Ed'.
Qed.
Lemma fwd_swaps sw : forall c k, alive c -> do_swaps eb sw (F c) = Some k -> exists c', do_swaps ea sw c = Some c' /\ F c' = k /\ alive c'.
Proof.
  induction sw as [|[i j] sw IH]; intros c k H; cbn [do_swaps]; [intros [= <-]; eauto|].
  unfold swap_members. cbn [cmap c_fits c_pop c_ev]. destruct (swap_at i j (c_fits c)) as [fs|]; [|discriminate]. destruct (swap_at i j (c_pop c)) as [ps|]; [|discriminate].
  destruct (ev_swap eb (f (c_ev c)) i j) as [e|] eqn:E; [|discriminate]. destruct (Fswap _ _ _ _ H E) as (a' & -> & <- & H1). intros K.
  destruct (IH (Core (c_store c) ps (c_newpop c) (c_best c) fs (c_muts c) (c_bestfit c) (c_gen c) a') k H1 K) as (c' & X). exists c'. exact X.
Qed.
Lemma fwd_update sw c k : alive c -> update_fitnesses eb sw (F c) = Some k -> exists c', update_fitnesses ea sw c = Some c' /\ F c' = k /\ alive c'.
Proof.
  intros H. unfold update_fitnesses. destruct (do_swaps eb sw (F c)) as [k1|] eqn:E; [|discriminate]. destruct (fwd_swaps _ _ _ H E) as (c1 & -> & <- & H1).
  unfold take_best. cbn [cmap c_pop c_fits c_store c_best]. destruct (nth_error (c_pop c1) 0); [|discriminate]. destruct (nth_error (c_fits c1) 0); [|discriminate].
  destruct (buf_set _ _ _); [|discriminate]. cbn [option_map]. intros [= <-]. eexists. split; [reflexivity|]. split; [reflexivity|exact H1].
Qed.
Lemma fwd_simple_calc lim s c k r : (lim <= n)%nat -> valid_schedule lim s -> alive c -> simple_calc eb s (F c) = Some (k, r) -> exists c', simple_calc ea s c = Some (c', r) /\ F c' = k /\ alive c'.
Proof. intros Hl Hv H. unfold simple_calc. cbn [cmap c_pop]. destruct (_ =? 0)%nat; [discriminate|]. apply fwd_acts with (1 := H). apply (dirts_schedule lim n s Hl Hv). Qed.
Lemma fwd_simple_step cutoff mu s sw c k r : valid_schedule n s -> alive c -> simple_step eb cutoff mu s sw (F c) = Some (k, r) ->
  exists c', simple_step ea cutoff mu s sw c = Some (c', r) /\ F c' = k /\ alive c'.
Proof.
  intros Hv H. unfold simple_step. change (c_pop (F c)) with (c_pop c). destruct (new_generation eb mu cutoff (length (c_pop c)) (F c)) as [k1|] eqn:E; [|discriminate].
  destruct (fwd_gen _ _ _ _ _ H E) as (c1 & -> & <- & H1).
  destruct (simple_calc eb s (F c1)) as [[k2 r2]|] eqn:E2; [|discriminate]. destruct (fwd_simple_calc n _ _ _ _ (le_n n) Hv H1 E2) as (c2 & -> & <- & H2).
  destruct (update_fitnesses eb sw (F c2)) as [k3|] eqn:E3; [|discriminate]. destruct (fwd_update _ _ _ H2 E3) as (c3 & -> & <- & H3). intros [= <- <-].
  eexists. split; [reflexivity|]. split; [reflexivity|exact H3].
Qed.
Lemma fwd_init groups e k : live e (clean n) -> init_core groups (f e) = Some k -> exists c, init_core groups e = Some c /\ F c = k /\ alive c.
Proof. intros H. unfold init_core. destruct groups; [discriminate|]. intros [= <-]. eexists. split; [reflexivity|]. split; [reflexivity|exact H]. Qed.
Lemma fwd_new_simple groups e s sw k r : valid_schedule n s -> live e (clean n) -> new_simple eb groups (f e) s sw = Some (k, r) ->
  exists c, new_simple ea groups e s sw = Some (c, r) /\ F c = k /\ alive c.
Proof.
  intros Hv H. unfold new_simple. destruct (init_core groups (f e)) as [k1|] eqn:E; [|discriminate]. destruct (fwd_init _ _ _ H E) as (c1 & -> & <- & H1).
  destruct (simple_calc eb s (F c1)) as [[k2 r2]|] eqn:E2; [|discriminate]. destruct (fwd_simple_calc n _ _ _ _ (le_n n) Hv H1 E2) as (c2 & -> & <- & H2).
  destruct (update_fitnesses eb sw (F c2)) as [k3|] eqn:E3; [|discriminate]. destruct (fwd_update _ _ _ H2 E3) as (c3 & -> & <- & H3). intros [= <- <-].
  eexists. split; [reflexivity|]. split; [reflexivity|exact H3].
Qed.

(** modifiedGenetic *)
Notation G := (gmap f).
Definition galive (g : mgen A) : Prop := alive (g_core g).
Lemma fwd_g_act cutoff g r a k r' dl dl' : live (c_ev (g_core g)) dl -> dirt dl a = Some dl' -> g_act eb cutoff (G g, r) a = Some (k, r') ->
  exists g', g_act ea cutoff (g, r) a = Some (g', r') /\ G g' = k /\ live (c_ev (g_core g')) dl'.
Proof.
  intros H Ed. unfold g_act. cbn [gmap g_core g_ben]. destruct (do_act eb (F (g_core g), r) a) as [[k1 r1]|] eqn:E; [|discriminate].
  destruct (fwd_act _ _ _ _ _ _ _ H Ed E) as (c1 & -> & <- & H1).
  destruct a as [|i|i]; try (intros [= <- <-]; eexists; split; [reflexivity|]; split; [reflexivity|exact H1]).
  destruct (get_base cutoff i) as [b|]; [|discriminate]. cbn [cmap c_fits c_muts]. destruct (b <? length (c_fits c1))%nat; [|discriminate].
  destruct (flt _ _); [|intros [= <- <-]; eexists; split; [reflexivity|]; split; [reflexivity|exact H1]].
  destruct (set_beneficial _ _ _ _ _); [|discriminate]. cbn [option_map]. intros [= <- <-]. eexists. split; [reflexivity|]. split; [reflexivity|exact H1].
Qed.
Lemma fwd_g_acts cutoff s : forall g r k r' dl dl', live (c_ev (g_core g)) dl -> dirts s dl = Some dl' -> g_acts eb cutoff s (G g, r) = Some (k, r') ->
  exists g', g_acts ea cutoff s (g, r) = Some (g', r') /\ G g' = k /\ live (c_ev (g_core g')) dl'.
Proof.
  induction s as [|a s IH]; intros g r k r' dl dl' H; cbn [g_acts dirts]; [intros [= <-] [= <- <-]; eauto|].
  destruct (dirt dl a) as [dl1|] eqn:Ed; [|discriminate]. intros Ed'.
  destruct (g_act eb cutoff (G g, r) a) as [[k1 r1]|] eqn:E; [|discriminate]. destruct (fwd_g_act _ _ _ _ _ _ _ _ H Ed E) as (g1 & -> & <- & H1). apply IH with (1 := H1), Ed'.
Qed.
Lemma fwd_g_calc cutoff lim s g k r : (lim <= n)%nat -> valid_schedule lim s -> galive g -> g_calc eb cutoff s (G g) = Some (k, r) ->
  exists g', g_calc ea cutoff s g = Some (g', r) /\ G g' = k /\ galive g'.
Proof. intros Hl Hv H. unfold g_calc. cbn [gmap g_core cmap c_pop]. destruct (_ <=? _)%nat; [discriminate|]. apply fwd_g_acts with (1 := H). apply (dirts_schedule lim n s Hl Hv). Qed.
Lemma fwd_combine_one cutoff i g r k r' : (i < n)%nat -> galive g -> combine_one eb cutoff i (G g, r) = Some (k, r') ->
  exists g', combine_one ea cutoff i (g, r) = Some (g', r') /\ G g' = k /\ galive g'.
Proof.
  intros Hi H. unfold combine_one. cbn [gmap g_core g_ben cmap c_muts c_pop c_fits c_store c_ev].
  destruct (put i [] (c_muts (g_core g))) as [m0|]; [|discriminate]. destruct (get_base cutoff i) as [b|]; [|discriminate]. destruct (nth_error (c_pop (g_core g)) i) as [a|]; [|discriminate].
  destruct (nth_error (g_ben g) b) as [[|bm bs]|]; [| |discriminate].
  { destruct (put i f0 (c_fits (g_core g))); [|discriminate]. cbn [option_map]. intros [= <- <-]. eexists. split; [reflexivity|]. split; [reflexivity|exact H]. }
  destruct (nth_error (c_pop (g_core g)) b) as [ab|]; [|discriminate]. destruct (ev_base eb _ i b) as [e1|] eqn:E1; [|discriminate]. destruct (Fbase _ _ _ _ _ H E1) as (a1 & -> & <- & H1).
  destruct (buf_set _ a ab) as [st1|]; [|discriminate]. destruct (apply_muts _ _) as [pts|]; [|discriminate].
  destruct (ev_calc eb (f a1) i pts _) as [[e2 v]|] eqn:E2; [|discriminate]. destruct (Fcalc _ _ _ _ _ _ _ H1 (clean_nth n i Hi) E2) as (a2 & -> & <- & H2).
  destruct (put i v _) as [fs|]; [|discriminate]. destruct (ev_update eb (f a2) i) as [e3|] eqn:E3; [|discriminate].
  assert (Hd : nth_error (set_nth i true (clean n)) i = Some true).
  { rewrite nth_error_set_nth, Nat.eqb_refl. unfold clean. rewrite repeat_length, (proj2 (Nat.ltb_lt _ _) Hi). reflexivity. }
  destruct (Fupd _ _ _ _ H2 Hd E3) as (a3 & -> & <- & H3). rewrite clean_set in H3.
  intros [= <- <-]. eexists. split; [reflexivity|]. split; [reflexivity|exact H3].
Qed.
Lemma fwd_combine cutoff m : forall i g r k r', (i + m <= n)%nat -> galive g -> combine_muts eb cutoff m i (G g, r) = Some (k, r') ->
  exists g', combine_muts ea cutoff m i (g, r) = Some (g', r') /\ G g' = k /\ galive g'.
Proof.
  induction m as [|m IH]; intros i g r k r' Hi H; cbn [combine_muts]; [intros [= <- <-]; eauto|].
  destruct (combine_one eb cutoff i (G g, r)) as [[k1 r1]|] eqn:E; [|discriminate]. destruct (fwd_combine_one cutoff i g r k1 r1 ltac:(lia) H E) as (g1 & -> & <- & H1). apply IH; [lia|exact H1].
Qed.
Lemma fwd_genetic_step cutoff mu s sw g k r : (cutoff <= n)%nat -> length (c_pop (g_core g)) = n -> valid_schedule (n - cutoff) s -> galive g ->
  genetic_step eb cutoff mu s sw (G g) = Some (k, r) -> exists g', genetic_step ea cutoff mu s sw g = Some (g', r) /\ G g' = k /\ galive g'.
Proof.
  intros Hc L Hv H. unfold genetic_step. cbn [gmap g_core g_ben]. change (c_pop (F (g_core g))) with (c_pop (g_core g)). rewrite L.
  destruct (new_generation eb mu cutoff _ (F (g_core g))) as [k1|] eqn:E; [|discriminate]. destruct (fwd_gen _ _ _ _ _ H E) as (c1 & -> & <- & H1).
  destruct (g_calc eb cutoff s (MGen (F c1) _)) as [[k2 r2]|] eqn:E2; [|discriminate].
  destruct (fwd_g_calc cutoff (n - cutoff) s (MGen c1 (map (fun _ => []) (g_ben g))) k2 r2 ltac:(lia) Hv H1 E2) as (g2 & -> & <- & H2).
  destruct (combine_muts eb cutoff cutoff _ (G g2, r2)) as [[k3 r3]|] eqn:E3; [|discriminate].
  destruct (fwd_combine cutoff cutoff (n - cutoff) g2 r2 k3 r3 ltac:(lia) H2 E3) as (g3 & -> & <- & H3).
  cbn [gmap g_core g_ben]. destruct (update_fitnesses eb sw (F (g_core g3))) as [k4|] eqn:E4; [|discriminate]. destruct (fwd_update _ _ _ H3 E4) as (c4 & -> & <- & H4).
  intros [= <- <-]. eexists. split; [reflexivity|]. split; [reflexivity|exact H4].
Qed.
Lemma fwd_new_genetic cutoff groups e s sw k r : valid_schedule (n - cutoff) s -> live e (clean n) -> new_genetic eb cutoff groups (f e) s sw = Some (k, r) ->
  exists g, new_genetic ea cutoff groups e s sw = Some (g, r) /\ G g = k /\ galive g.
Proof.
  intros Hv H. unfold new_genetic. destruct (init_core groups (f e)) as [k1|] eqn:E; [|discriminate]. destruct (fwd_init _ _ _ H E) as (c1 & -> & <- & H1).
  destruct (g_calc eb cutoff s (MGen (F c1) _)) as [[k2 r2]|] eqn:E2; [|discriminate].
  destruct (fwd_g_calc cutoff (n - cutoff) s (MGen c1 (repeat [] cutoff)) k2 r2 ltac:(lia) Hv H1 E2) as (g2 & -> & <- & H2).
  cbn [gmap g_core g_ben]. destruct (update_fitnesses eb sw (F (g_core g2))) as [k4|] eqn:E4; [|discriminate]. destruct (fwd_update _ _ _ H2 E4) as (c4 & -> & <- & H4).
  intros [= <- <-]. eexists. split; [reflexivity|]. split; [reflexivity|exact H4].
Qed.
End Fwd.

(** The parallel evaluator against the one without caches. *)
Section Par.
Context (im : fimg) (srt : M_Geom.point -> list M_Geom.point -> option (list M_Geom.point)) (N : Z) (n : nat).
Hypothesis HN : (2 <= N < 2 ^ 63)%Z.
Definition plive (p : par) (dl : list bool) : Prop := par_ok im p /\ exists D, turn_ok N D p /\ map D (p_order p) = dl.
Lemma plive_step p fs o b dl dl' : plive p dl -> turn dl o = Some dl' -> eop_step (bare_ev im srt) (strip p, fs) o = Some b ->
  exists p' fs', eop_step (parallel im srt) (p, fs) o = Some (p', fs') /\ b = (strip p', fs') /\ plive p' dl'.
Proof.
  intros (O & D & T & <-) Tn E. destruct (par_step_turn im srt N D p fs o b dl' HN O T Tn E) as (p' & fs' & D' & E1 & T' & M').
  destruct (par_step_sim im srt p fs o p' fs' O E1) as [O' E2]. exists p', fs'. split; [exact E1|]. split; [congruence|]. split; [exact O'|]. exists D'. auto.
Qed.
Lemma plive_calc p dl i pts log b v : plive p dl -> nth_error dl i = Some false -> ev_calc (bare_ev im srt) (strip p) i pts log = Some (b, v) ->
  exists p', ev_calc (parallel im srt) p i pts log = Some (p', v) /\ strip p' = b /\ plive p' (set_nth i true dl).
Proof.
  intros O Ed E. destruct (plive_step p [] (OCalc i pts log) (b, [v]) dl (set_nth i true dl) O) as (p' & fs' & E1 & E2 & O').
  - cbn [turn]. rewrite Ed. reflexivity.
  - unfold eop_step. rewrite E. reflexivity.
  - injection E2 as -> <-. exists p'. unfold eop_step in E1. destruct (ev_calc (parallel im srt) p i pts log) as [[q u]|]; [|discriminate]. cbn [option_map fst snd app] in E1. injection E1 as -> ->. auto.
Qed.
Lemma plive_upd p dl i b : plive p dl -> nth_error dl i = Some true -> ev_update (bare_ev im srt) (strip p) i = Some b ->
  exists p', ev_update (parallel im srt) p i = Some p' /\ strip p' = b /\ plive p' (set_nth i false dl).
Proof.
  intros O Ed E. destruct (plive_step p [] (OUpdate i) (b, []) dl (set_nth i false dl) O) as (p' & fs' & E1 & E2 & O').
  - cbn [turn]. rewrite Ed. reflexivity.
  - unfold eop_step. rewrite E. reflexivity.
  - injection E2 as -> <-. exists p'. unfold eop_step in E1. destruct (ev_update (parallel im srt) p i) as [q|]; [|discriminate]. cbn [option_map] in E1. injection E1 as ->. auto.
Qed.
Lemma plive_prep p dl b : plive p dl -> ev_prepare (bare_ev im srt) (strip p) = Some b -> exists p', ev_prepare (parallel im srt) p = Some p' /\ strip p' = b /\ plive p' dl.
Proof.
  intros O E. destruct (plive_step p [] OPrepare (b, []) dl dl O) as (p' & fs' & E1 & E2 & O').
  - reflexivity.
  - unfold eop_step. rewrite E. reflexivity.
  - injection E2 as -> <-. exists p'. unfold eop_step in E1. destruct (ev_prepare (parallel im srt) p) as [q|]; [|discriminate]. cbn [option_map] in E1. injection E1 as ->. auto.
Qed.
Lemma plive_base p dl i j b : plive p dl -> ev_base (bare_ev im srt) (strip p) i j = Some b -> exists p', ev_base (parallel im srt) p i j = Some p' /\ strip p' = b /\ plive p' dl.
Proof.
  intros O E. destruct (plive_step p [] (OBase i j) (b, []) dl dl O) as (p' & fs' & E1 & E2 & O').
  - reflexivity.
  - unfold eop_step. rewrite E. reflexivity.
  - injection E2 as -> <-. exists p'. unfold eop_step in E1. destruct (ev_base (parallel im srt) p i j) as [q|]; [|discriminate]. cbn [option_map] in E1. injection E1 as ->. auto.
Qed.
Lemma plive_swap p i j b : plive p (clean n) -> ev_swap (bare_ev im srt) (strip p) i j = Some b -> exists p', ev_swap (parallel im srt) p i j = Some p' /\ strip p' = b /\ plive p' (clean n).
Proof.
  intros O E. destruct (plive_step p [] (OSwap i j) (b, []) (clean n) (clean n) O) as (p' & fs' & E1 & E2 & O').
  - cbn [turn]. cbn [bare_ev keep_ev ev_swap strip b_order] in E. destruct (swap_at i j (p_order p)) as [o|] eqn:Eo; [|discriminate].
    destruct O as (_ & D & _ & M). assert (L : length (p_order p) = n) by (rewrite <- (map_length D), M; apply repeat_length).
    unfold swap_at in Eo. destruct (nth_error (p_order p) i) eqn:Ei; [|discriminate]. destruct (nth_error (p_order p) j) eqn:Ej; [|discriminate].
    apply clean_swap; rewrite <- L; apply nth_error_Some; congruence.
  - unfold eop_step. rewrite E. reflexivity.
  - injection E2 as -> <-. exists p'. unfold eop_step in E1. destruct (ev_swap (parallel im srt) p i j) as [q|]; [|discriminate]. cbn [option_map] in E1. injection E1 as ->. auto.
Qed.
End Par.
Lemma new_plive im n k : plive im (Z.of_nat (Nat.pow 2 k)) (new_parallel n k) (clean n).
Proof.
  split; [apply new_parallel_ok|]. exists (fun _ => false). split; [apply new_turn_ok|]. cbn [new_parallel p_order]. unfold clean.
  generalize 0%nat. induction n as [|n IH]; intros a; [reflexivity|]. cbn [seq map repeat]. f_equal. apply IH.
Qed.
