(** The evaluator in memory does what the evaluator over values does. *)
From Coq Require Import ZArith List Bool Arith Lia Permutation.
From Verif Require Import GoNum M_Norm M_Slice M_Geom M_Image M_Raster M_Delaunay M_Algo M_Fitness M_Heap M_Cells M_Mem S_Mem M_MemRun S_MemRun L_Slice L_Algo2 L_Sim L_Fwd L_Mem.
Import ListNotations.
Local Open Scope nat_scope.
Local Opaque new_delaunay insert remove d_set.

Section Run.
Context (grow : forall A : Type, list (list A) -> nat) (im : fimg) (srt : point -> list point -> option (list point)).
Hypothesis KL : keeps_length srt.

Lemma x_iter_view m x : x_iter m x = iter_triangles (view m x).
Proof. reflexivity. Qed.
Lemma x_score_calc alias tris d : x_score im alias tris (iter_triangles d) = calc_tri im alias tris d.
Proof. reflexivity. Qed.

(** Inserting into and removing from one triangulation among values. *)
Lemma set_nth_twice {A} (l : list A) : forall k a b, set_nth k a (set_nth k b l) = set_nth k a l.
Proof. induction l as [|x l IH]; intros [|k] a b; cbn; try reflexivity. f_equal. apply IH. Qed.
Lemma set_nth_self {A} (l : list A) : forall k a, nth_error l k = Some a -> set_nth k a l = l.
Proof. induction l as [|x l IH]; intros [|k] a; cbn; try discriminate; [intros [= ->]; reflexivity|]. intros E. f_equal. apply IH, E. Qed.
Lemma nth_set {A} (l : list A) k j a : nth_error (set_nth k a l) j = if k =? j then option_map (fun _ => a) (nth_error l j) else nth_error l j.
Proof. revert k j. induction l as [|x l IH]; intros [|k] [|j]; cbn; try reflexivity; [destruct (k =? j); reflexivity|apply IH]. Qed.
Lemma l_run_one (mk : point -> dop) (f : delaunay -> point -> option delaunay) k : (forall vs p, l_step srt vs (mk p) = match nth_error vs k with None => None | Some d => option_map (fun d' => set_nth k d' vs) (f d p) end) ->
  forall A (g : A -> point) l vs d, nth_error vs k = Some d -> l_run srt (map (fun a => mk (g a)) l) vs = option_map (fun d' => set_nth k d' vs) (foldM (fun d a => f d (g a)) l d).
Proof.
  intros H A g. unfold l_run. induction l as [|a l IH]; intros vs d E; cbn [map foldM].
  - cbn [option_map]. rewrite set_nth_self by exact E. reflexivity.
  - rewrite H, E. destruct (f d (g a)) as [d1|]; cbn [option_map]; [|reflexivity]. rewrite (IH _ d1).
    + destruct (foldM _ l d1); cbn [option_map]; [|reflexivity]. rewrite set_nth_twice. reflexivity.
    + rewrite nth_set, Nat.eqb_refl, E. reflexivity.
Qed.
Lemma l_run_app a b vs : l_run srt (a ++ b) vs = match l_run srt a vs with None => None | Some vs' => l_run srt b vs' end.
Proof. unfold l_run. revert vs. induction a as [|x a IH]; intros vs; cbn [app foldM]; [reflexivity|]. destruct (l_step srt vs x); [apply IH|reflexivity]. Qed.
Lemma two_diff_map {A} (mk : A -> dop) l : (forall a, two_different (mk a)) -> Forall two_different (map mk l).
Proof. intros H. induction l; cbn [map]; constructor; auto. Qed.

(** The state of the functions fits the memory. *)
Record xok (p : xpar) : Prop := {
  xo_pool : pool_ok (xp_pool p);
  xo_tri : forall id f k, nth_error (xp_funs p) id = Some f -> xf_tri f = Some k -> k < length (w_all (xp_pool p));
  xo_own : forall i j f g k, nth_error (xp_funs p) i = Some f -> nth_error (xp_funs p) j = Some g -> xf_tri f = Some k -> xf_tri g = Some k -> i = j;
  xo_base : forall id f o, nth_error (xp_funs p) id = Some f -> xf_base f = Some o -> exists j g, nth_error (xp_funs p) j = Some g /\ xf_tri g = Some o }.

Lemma owner_sound o l : forall j, owner o l = Some j -> exists g, nth_error l j = Some g /\ xf_tri g = Some o.
Proof.
  induction l as [|f l IH]; intros j; cbn [owner]; [discriminate|]. destruct (points_to o f) eqn:P.
  - intros [= <-]. exists f. split; [reflexivity|]. unfold points_to in P. destruct (xf_tri f); [|discriminate]. apply Nat.eqb_eq in P. congruence.
  - destruct (owner o l) as [j0|]; [|discriminate]. intros [= <-]. apply (IH j0 eq_refl).
Qed.
Lemma owner_complete o l : forall j g, nth_error l j = Some g -> xf_tri g = Some o -> owner o l <> None.
Proof.
  induction l as [|f l IH]; intros [|j] g; cbn [nth_error owner]; try discriminate.
  - intros [= ->] T. unfold points_to. rewrite T, Nat.eqb_refl. discriminate.
  - intros E T. destruct (points_to o f); [discriminate|]. specialize (IH j g E T). destruct (owner o l); [discriminate|congruence].
Qed.
Lemma owner_of p o j g : xok p -> nth_error (xp_funs p) j = Some g -> xf_tri g = Some o -> owner o (xp_funs p) = Some j.
Proof.
  intros O E T. pose proof (owner_complete o _ j g E T) as N. destruct (owner o (xp_funs p)) as [i|] eqn:W; [|congruence]. destruct (owner_sound o _ i W) as (f & Ef & Tf). f_equal. exact (xo_own p O i j f g o Ef E Tf T).
Qed.
Lemma owner_set o f f' l : forall id, nth_error l id = Some f -> points_to o f' = points_to o f -> owner o (set_nth id f' l) = owner o l.
Proof.
  induction l as [|x l IH]; intros [|id]; cbn [nth_error set_nth owner]; try discriminate.
  - intros [= ->] ->. reflexivity.
  - intros E P. rewrite (IH id E P). reflexivity.
Qed.

Lemma at_plain p i : at_pos (plain p) i = option_map (fun af => (fst af, plain_fun (xp_pool p) (xp_funs p) (snd af))) (x_at_pos p i).
Proof. unfold at_pos, x_at_pos, plain. cbn [p_order p_funs]. destruct (nth_error (xp_order p) i) as [id|]; [|reflexivity]. rewrite nth_error_map. destruct (nth_error (xp_funs p) id); reflexivity. Qed.
Lemma at_fun p i id f : x_at_pos p i = Some (id, f) -> nth_error (xp_funs p) id = Some f.
Proof. unfold x_at_pos. destruct (nth_error (xp_order p) i) as [j|]; [|discriminate]. destruct (nth_error (xp_funs p) j) eqn:E; [|discriminate]. intros [= <- <-]. exact E. Qed.

(** One function changes. *)
Lemma map_set {A B} (g : A -> B) l : forall k a, map g (set_nth k a l) = set_nth k (g a) (map g l).
Proof. induction l as [|x l IH]; intros [|k] a; cbn; try reflexivity. f_equal. apply IH. Qed.
Lemma plain_set s s' l id f f' :
  nth_error l id = Some f ->
  (forall j g, j <> id -> nth_error l j = Some g -> plain_fun s' (set_nth id f' l) g = plain_fun s l g) ->
  map (plain_fun s' (set_nth id f' l)) (set_nth id f' l) = set_nth id (plain_fun s' (set_nth id f' l) f') (map (plain_fun s l) l).
Proof.
  intros E H. rewrite map_set. apply nth_error_ext. intros j. rewrite !nth_set, !nth_error_map. destruct (Nat.eqb_spec id j) as [->|N]; [destruct (nth_error l j); reflexivity|].
  destruct (nth_error l j) as [g|] eqn:Ej; cbn [option_map]; [|reflexivity]. f_equal. apply (H j g); [congruence|exact Ej].
Qed.

(** The pool after the first part of Calculate. *)
Lemma x_next_ok p id f pts muts d :
  xok p -> nth_error (xp_funs p) id = Some f ->
  (match xf_base f with Some o => owner o (xp_funs p) | None => None end) <> Some id ->
  next_tri im srt (tf_tri (plain_fun (xp_pool p) (xp_funs p) f))
    (match tf_base (plain_fun (xp_pool p) (xp_funs p) f) with None => None | Some b => match nth_error (p_funs (plain p)) b with None => None | Some g => tf_tri g end end) pts muts = Some d ->
  exists s k, x_next grow im srt (xf_tri f) (xf_base f) pts muts (xp_pool p) = Some (s, k) /\ pool_ok s /\
    ((xf_tri f = None /\ k = length (w_all (xp_pool p)) /\ views s = views (xp_pool p) ++ [d]) \/
     (xf_tri f = Some k /\ views s = set_nth k d (views (xp_pool p)))).
Proof.
  intros O E NB. pose proof (xo_pool p O) as PO. unfold next_tri, x_next, plain_fun. cbn [tf_tri tf_base].
  assert (IK : forall k vs q, l_step srt vs (DInsert k q) = match nth_error vs k with None => None | Some d => option_map (fun d' => set_nth k d' vs) (insert d q) end) by reflexivity.
  assert (RK : forall k vs q, l_step srt vs (DRemove k q) = match nth_error vs k with None => None | Some d => option_map (fun d' => set_nth k d' vs) ((fun d q => remove (srt q) d q) d q) end) by reflexivity.
  destruct (xf_tri f) as [k|] eqn:T.
  - pose proof (xo_tri p O id f k E T) as Lk. destruct (nth_error (views (xp_pool p)) k) as [dk|] eqn:Vk.
    2:{ apply nth_error_None in Vk. unfold views in Vk. rewrite map_length in Vk. lia. }
    destruct (xf_base f) as [o|] eqn:B.
    + destruct (xo_base p O id f o E B) as (j & g & Ej & Tg). rewrite (owner_of p o j g O Ej Tg) in *.
      unfold plain. cbn [p_funs]. rewrite nth_error_map, Ej. cbn [option_map plain_fun tf_tri]. rewrite Tg.
      pose proof (xo_tri p O j g o Ej Tg) as Lo. destruct (nth_error (views (xp_pool p)) o) as [dd|] eqn:Vo.
      2:{ apply nth_error_None in Vo. unfold views in Vo. rewrite map_length in Vo. lia. }
      assert (KO : k <> o). { intros <-. apply NB. f_equal. exact (xo_own p O j id g f k Ej E Tg T). }
      intros NX. unfold x_assign. rewrite (proj2 (Nat.eqb_neq k o) KO).
      destruct (x_step_ok grow srt (xp_pool p) (DSet k o) KL KO PO) as [S1 S2]. cbn [l_step] in S1. rewrite Vk, Vo in S1.
      destruct (d_set dk dd) as [d1|]; [|discriminate NX]. cbn [option_map] in S1. destruct (x_step grow srt (xp_pool p) (DSet k o)) as [s1|]; [|discriminate S1]. specialize (S2 s1 eq_refl). cbn [option_map] in S1. injection S1 as S1.
      set (ops := map (fun m => DRemove k (mut_point im (m_old m))) muts ++ map (fun m => DInsert k (mut_point im (m_new m))) muts).
      assert (F : Forall two_different ops) by (apply Forall_app; split; apply two_diff_map; intros a; exact I).
      destruct (x_run_ok grow srt ops s1 KL F S2) as [R1 R2]. unfold ops in R1 at 2. rewrite l_run_app in R1.
      assert (V1 : nth_error (views s1) k = Some d1) by (rewrite S1, nth_set, Nat.eqb_refl, Vk; reflexivity).
      destruct (foldM (fun d m => let q := mut_point im (m_old m) in remove (srt q) d q) muts d1) as [d2|] eqn:F2; [|discriminate NX].
      assert (X : l_run srt (map (fun m => DRemove k (mut_point im (m_old m))) muts) (views s1) = Some (set_nth k d2 (views s1))).
      { etransitivity; [apply (l_run_one (DRemove k) (fun d q => remove (srt q) d q) k (RK k) mut (fun m => mut_point im (m_old m)) muts (views s1) d1 V1)|]. exact (f_equal (option_map (fun d' => set_nth k d' (views s1))) F2). }
      rewrite X in R1.
      assert (V2 : nth_error (set_nth k d2 (views s1)) k = Some d2) by (rewrite nth_set, Nat.eqb_refl, V1; reflexivity).
      rewrite (l_run_one (DInsert k) insert k (IK k) mut (fun m => mut_point im (m_new m)) muts _ d2 V2) in R1. rewrite NX in R1. cbn [option_map] in R1.
      destruct (x_run grow srt ops s1) as [s2|]; [|discriminate R1]. cbn [option_map] in *. injection R1 as R1. exists s2, k. split; [reflexivity|]. split; [apply R2; reflexivity|]. right. split; [reflexivity|].
      rewrite R1, set_nth_twice, S1, set_nth_twice. reflexivity.
    + intros [= <-]. exists (xp_pool p), k. split; [reflexivity|]. split; [exact PO|]. right. split; [reflexivity|]. rewrite set_nth_self by exact Vk. reflexivity.
  - intros NX. set (k := length (w_all (xp_pool p))). set (ops := DNew (fi_w im) (fi_h im) :: map (fun q => DInsert k (mut_point im q)) pts).
    assert (F : Forall two_different ops) by (constructor; [exact I|apply two_diff_map; intros a; exact I]).
    destruct (x_run_ok grow srt ops (xp_pool p) KL F PO) as [R1 R2]. unfold ops in R1 at 2. unfold l_run in R1. cbn [foldM l_step] in R1.
    destruct (new_delaunay (fi_w im) (fi_h im)) as [d0|]; [|discriminate NX]. cbn [option_map] in R1.
    assert (LV : length (views (xp_pool p)) = k) by (unfold views; apply map_length).
    assert (V0 : nth_error (views (xp_pool p) ++ [d0]) k = Some d0) by (rewrite nth_error_app2, LV, Nat.sub_diag by lia; reflexivity).
    pose proof (l_run_one (DInsert k) insert k (IK k) npoint (fun q => mut_point im q) pts _ d0 V0) as R3. unfold l_run in R3. rewrite R3 in R1. rewrite NX in R1. cbn [option_map] in R1.
    destruct (x_run grow srt ops (xp_pool p)) as [s2|]; [|discriminate R1]. cbn [option_map] in *. injection R1 as R1. exists s2, k. split; [reflexivity|]. split; [apply R2; reflexivity|]. left. split; [reflexivity|]. split; [reflexivity|].
    rewrite R1. rewrite <- LV. clear. induction (views (xp_pool p)) as [|x l IH]; cbn; [reflexivity|]. f_equal. exact IH.
Qed.

Lemma length_views s : length (views s) = length (w_all s).
Proof. apply map_length. Qed.

Lemma xcalc_ok p i pts muts b v : xok p -> par_calc im srt (plain p) i pts muts = Some (b, v) ->
  exists p', xpar_calc grow im srt p i pts muts = Some (p', v) /\ plain p' = b /\ xok p'.
Proof.
  intros O. unfold par_calc, xpar_calc. rewrite at_plain. destruct (x_at_pos p i) as [[id f]|] eqn:AP; [|discriminate]. cbn [option_map fst snd]. pose proof (at_fun p i id f AP) as E.
  change (tf_base (plain_fun (xp_pool p) (xp_funs p) f)) with (match xf_base f with Some o => owner o (xp_funs p) | None => None end) at 1.
  destruct (match (match xf_base f with Some o => owner o (xp_funs p) | None => None end) with Some b0 => b0 =? id | None => false end) eqn:OB; [discriminate|].
  assert (NB : (match xf_base f with Some o => owner o (xp_funs p) | None => None end) <> Some id). { intros X. rewrite X, Nat.eqb_refl in OB. discriminate. }
  cbv zeta. unfold calc_fun. destruct (next_tri im srt _ _ pts muts) as [d|] eqn:NX; [|discriminate].
  destruct (x_next_ok p id f pts muts d O E NB NX) as (s & k & -> & PS & VS).
  change (p_arrs (plain p)) with (xp_arrs p). change (tf_cache (plain_fun (xp_pool p) (xp_funs p) f)) with (xf_cache f).
  destruct (cache_view (xp_arrs p) (xf_cache f)) as [[view alias]|]; [|discriminate].
  assert (Vk : nth_error (views s) k = Some d).
  { destruct VS as [(T & -> & ->)|(T & ->)]; [rewrite nth_error_app2, length_views, Nat.sub_diag by (rewrite length_views; lia); reflexivity|].
    rewrite nth_set, Nat.eqb_refl. pose proof (xo_tri p O id f k E T) as L. destruct (nth_error (views (xp_pool p)) k) eqn:N; [reflexivity|]. apply nth_error_None in N. rewrite length_views in N. lia. }
  pose proof Vk as Vk'. rewrite views_nth in Vk'. destruct (nth_error (w_all s) k) as [x|] eqn:Wk; [|discriminate]. cbn [option_map] in Vk'. injection Vk' as Vx.
  rewrite x_iter_view, x_score_calc, Vx. destruct (calc_tri im alias view d) as [[fit next]|]; [|discriminate]. intros [= <- <-].
  set (f' := XF (Some k) None (COwn next)). eexists. split; [reflexivity|].
  assert (LW : length (w_all (xp_pool p)) <= length (w_all s)).
  { rewrite <- !length_views. destruct VS as [(_ & _ & ->)|(_ & ->)]; [rewrite app_length; lia|rewrite set_nth_length; lia]. }
  assert (KN : forall j g, j <> id -> nth_error (xp_funs p) j = Some g -> xf_tri g <> Some k).
  { intros j g N Ej T. destruct VS as [(T0 & -> & _)|(T0 & _)]; [pose proof (xo_tri p O j g _ Ej T); lia|]. apply N. exact (xo_own p O j id g f k Ej E T T0). }
  assert (OW : forall o, (exists j g, nth_error (xp_funs p) j = Some g /\ xf_tri g = Some o) -> owner o (set_nth id f' (xp_funs p)) = owner o (xp_funs p)).
  { intros o (j & g & Ej & Tg). apply (owner_set o f f' _ id E). unfold points_to, f'. cbn [xf_tri]. destruct VS as [(T0 & K & _)|(T0 & _)]; rewrite T0; [|reflexivity]. apply Nat.eqb_neq. pose proof (xo_tri p O j g o Ej Tg). lia. }
  split.
  - unfold plain at 1. cbn [xp_funs xp_order xp_arrs xp_cur xp_pool]. unfold plain. cbn [p_funs p_order p_arrs p_cur].
    rewrite (plain_set (xp_pool p) s (xp_funs p) id f f' E).
    + unfold plain_fun at 1, f' at 1 2 3. cbn [xf_tri xf_base xf_cache]. rewrite Vk. reflexivity.
    + intros j g N Ej. unfold plain_fun. f_equal.
      * destruct (xf_tri g) as [kg|] eqn:Tg; [|reflexivity]. pose proof (xo_tri p O j g kg Ej Tg) as L. destruct VS as [(_ & _ & ->)|(_ & ->)]; [rewrite nth_error_app1 by (rewrite length_views; lia); reflexivity|].
        rewrite nth_set. destruct (Nat.eqb_spec k kg) as [->|]; [|reflexivity]. exfalso. exact (KN j g N Ej Tg).
      * destruct (xf_base g) as [o|] eqn:Bg; [|reflexivity]. apply OW. exact (xo_base p O j g o Ej Bg).
  - constructor; cbn [xp_funs xp_pool].
    + exact PS.
    + intros j g kg. rewrite nth_set. destruct (Nat.eqb_spec id j) as [<-|N].
      * rewrite E. intros [= <-] [= <-]. apply nth_error_Some. rewrite Wk. discriminate.
      * intros Ej Tg. pose proof (xo_tri p O j g kg Ej Tg). lia.
    + intros j1 j2 g1 g2 kg. rewrite !nth_set. destruct (Nat.eqb_spec id j1) as [<-|N1]; destruct (Nat.eqb_spec id j2) as [<-|N2]; rewrite ?E; cbn [option_map].
      * reflexivity.
      * intros [= <-] E2 [= <-] T2. exfalso. exact (KN j2 g2 ltac:(congruence) E2 T2).
      * intros E1 [= <-] T1 [= <-]. exfalso. exact (KN j1 g1 ltac:(congruence) E1 T1).
      * apply (xo_own p O).
    + intros j g o. rewrite nth_set. destruct (Nat.eqb_spec id j) as [<-|N]; [rewrite E; intros [= <-] B; discriminate B|]. intros Ej Bg.
      destruct (xo_base p O j g o Ej Bg) as (j2 & g2 & E2 & T2). destruct (Nat.eq_dec j2 id) as [->|N2].
      * exists id, f'. rewrite nth_set, Nat.eqb_refl, E. split; [reflexivity|]. assert (g2 = f) by congruence. subst g2. destruct VS as [(T0 & _)|(T0 & _)]; [congruence|]. unfold f'. cbn [xf_tri]. congruence.
      * exists j2, g2. rewrite nth_set, (proj2 (Nat.eqb_neq id j2)) by congruence. split; assumption.
Qed.

(** A function whose pointer Triangulation stays. *)
Lemma put_ok p id f f' : xok p -> nth_error (xp_funs p) id = Some f -> xf_tri f' = xf_tri f ->
  (forall o, xf_base f' = Some o -> exists j g, nth_error (xp_funs p) j = Some g /\ xf_tri g = Some o) ->
  forall q, xp_funs q = set_nth id f' (xp_funs p) -> xp_pool q = xp_pool p ->
  xok q /\ map (plain_fun (xp_pool q) (xp_funs q)) (xp_funs q) = set_nth id (plain_fun (xp_pool p) (xp_funs p) f') (map (plain_fun (xp_pool p) (xp_funs p)) (xp_funs p)).
Proof.
  intros O E T HB q Q1 Q2.
  assert (TR : forall j g, nth_error (set_nth id f' (xp_funs p)) j = Some g -> exists g0, nth_error (xp_funs p) j = Some g0 /\ xf_tri g0 = xf_tri g).
  { intros j g. rewrite nth_set. destruct (Nat.eqb_spec id j) as [<-|N]; [rewrite E; intros [= <-]; exists f; auto|eauto]. }
  assert (OW : forall o, owner o (set_nth id f' (xp_funs p)) = owner o (xp_funs p)) by (intros o; apply (owner_set o f f' _ id E); unfold points_to; rewrite T; reflexivity).
  assert (EX : forall o, (exists j g, nth_error (xp_funs p) j = Some g /\ xf_tri g = Some o) -> exists j g, nth_error (set_nth id f' (xp_funs p)) j = Some g /\ xf_tri g = Some o).
  { intros o (j & g & Ej & Tg). destruct (Nat.eq_dec id j) as [<-|N]; [exists id, f'; rewrite nth_set, Nat.eqb_refl, E; split; [reflexivity|congruence]|]. exists j, g. rewrite nth_set, (proj2 (Nat.eqb_neq id j) N). auto. }
  split.
  - constructor; rewrite ?Q1, ?Q2.
    + exact (xo_pool p O).
    + intros j g k Ej Tg. destruct (TR j g Ej) as (g0 & E0 & T0). apply (xo_tri p O j g0 k E0). congruence.
    + intros j1 j2 g1 g2 k E1 E2 T1 T2. destruct (TR j1 g1 E1) as (h1 & F1 & U1). destruct (TR j2 g2 E2) as (h2 & F2 & U2). apply (xo_own p O j1 j2 h1 h2 k F1 F2); congruence.
    + intros j g o Ej Bg. apply EX. rewrite nth_set in Ej. destruct (Nat.eqb_spec id j) as [<-|N]; [rewrite E in Ej; injection Ej as <-; apply HB, Bg|exact (xo_base p O j g o Ej Bg)].
  - rewrite Q1, Q2. rewrite (plain_set (xp_pool p) (xp_pool p) (xp_funs p) id f f' E).
    + f_equal. unfold plain_fun. f_equal. destruct (xf_base f'); [apply OW|reflexivity].
    + intros j g N Ej. unfold plain_fun. f_equal. destruct (xf_base g); [apply OW|reflexivity].
Qed.

Lemma xupdate_ok p i b : xok p -> par_update (plain p) i = Some b -> exists p', xpar_update p i = Some p' /\ plain p' = b /\ xok p'.
Proof.
  intros O. unfold par_update, xpar_update. rewrite at_plain. destruct (x_at_pos p i) as [[id f]|] eqn:AP; [|discriminate]. cbn [option_map fst snd]. pose proof (at_fun p i id f AP) as E.
  change (p_arrs (plain p)) with (xp_arrs p). change (p_cur (plain p)) with (xp_cur p). change (tf_cache (plain_fun (xp_pool p) (xp_funs p) f)) with (xf_cache f).
  destruct (cache_view (xp_arrs p) (xf_cache f)) as [[view al]|]; [|discriminate]. destruct (nth_error (xp_arrs p) (xp_cur p)) as [arr|]; [|discriminate]. destruct (foldM _ view arr) as [arr'|]; [|discriminate]. intros [= <-].
  eexists. split; [reflexivity|]. match goal with |- plain ?Q = _ /\ _ => set (q := Q) end.
  destruct (put_ok p id f (XF (xf_tri f) (xf_base f) (CArr (xp_cur p))) O E eq_refl (fun o => xo_base p O id f o E) q eq_refl eq_refl) as [OQ PQ]. split; [|exact OQ].
  unfold plain at 1. rewrite PQ. reflexivity.
Qed.
Lemma xprepare_ok p b : xok p -> par_prepare (plain p) = Some b -> exists p', xpar_prepare p = Some p' /\ plain p' = b /\ xok p'.
Proof. intros O [= <-]. eexists. split; [reflexivity|]. split; [reflexivity|]. destruct O. constructor; assumption. Qed.
Lemma xbase_ok p i j b : xok p -> par_base (plain p) i j = Some b -> exists p', xpar_base p i j = Some p' /\ plain p' = b /\ xok p'.
Proof.
  intros O. unfold par_base, xpar_base. rewrite !at_plain. destruct (x_at_pos p i) as [[id f]|] eqn:AP; [|discriminate]. destruct (x_at_pos p j) as [[jd g]|] eqn:AJ; [|discriminate]. cbn [option_map fst snd]. intros [= <-].
  pose proof (at_fun p i id f AP) as E. pose proof (at_fun p j jd g AJ) as Eg. eexists. split; [reflexivity|]. match goal with |- plain ?Q = _ /\ _ => set (q := Q) end.
  destruct (put_ok p id f (XF (xf_tri f) (xf_tri g) (xf_cache f)) O E eq_refl) with (q := q) as [OQ PQ]; [intros o T; exists jd, g; auto|reflexivity|reflexivity|]. split; [|exact OQ].
  unfold plain at 1. rewrite PQ. cbn [q x_put_fun xp_order xp_arrs xp_cur]. unfold plain. cbn [p_funs p_order p_arrs p_cur]. f_equal. f_equal. unfold plain_fun. cbn [xf_tri xf_base xf_cache tf_tri tf_cache]. f_equal.
  destruct (xf_tri g) as [k|] eqn:T; [|reflexivity]. rewrite (owner_of p k jd g O Eg T). pose proof (xo_tri p O jd g k Eg T) as L. destruct (nth_error (views (xp_pool p)) k) eqn:N; [reflexivity|]. apply nth_error_None in N. rewrite length_views in N. lia.
Qed.
Lemma xswap_ok p i j b : xok p -> par_swap (plain p) i j = Some b -> exists p', xpar_swap p i j = Some p' /\ plain p' = b /\ xok p'.
Proof.
  intros O. unfold par_swap, xpar_swap. change (p_order (plain p)) with (xp_order p). destruct (swap_at i j (xp_order p)) as [o|]; [|discriminate]. intros [= <-]. eexists. split; [reflexivity|]. split; [reflexivity|]. destruct O. constructor; assumption.
Qed.
Lemma new_xok n pow2 : xok (new_xpar n pow2).
Proof.
  assert (K : forall id f, nth_error (repeat (XF None None CInit) n) id = Some f -> f = XF None None CInit) by (intros id f E; apply nth_error_In, repeat_spec in E; exact E).
  constructor; cbn [new_xpar xp_funs xp_pool].
  - apply no_pool_ok.
  - intros id f k E T. rewrite (K id f E) in T. discriminate.
  - intros i j f g k E _ T _. rewrite (K i f E) in T. discriminate.
  - intros id f o E B. rewrite (K id f E) in B. discriminate.
Qed.
Lemma plain_new n pow2 : plain (new_xpar n pow2) = new_parallel n pow2.
Proof. unfold plain, new_parallel, new_xpar. cbn [xp_funs xp_order xp_arrs xp_cur xp_pool]. f_equal. generalize (repeat (XF None None CInit) n) at 1. intros l. induction n as [|n IH]; cbn; [reflexivity|]. f_equal. exact IH. Qed.

(** The algorithms. *)
Definition xlive (p : xpar) (dl : list bool) : Prop := xok p.
Lemma xsimple_step n cutoff mu s sw c k r : valid_schedule n s -> xok (c_ev c) -> simple_step (parallel im srt) cutoff mu s sw (cmap plain c) = Some (k, r) ->
  exists c', simple_step (xparallel grow im srt) cutoff mu s sw c = Some (c', r) /\ cmap plain c' = k /\ xok (c_ev c').
Proof.
  apply (fwd_simple_step (xparallel grow im srt) (parallel im srt) plain xlive n).
  - intros a dl i pts log b v O _. apply xcalc_ok, O.
  - intros a dl i b O _. apply xupdate_ok, O.
  - intros a dl b. apply xprepare_ok.
  - intros a dl i j b. apply xbase_ok.
  - intros a i j b. apply xswap_ok.
Qed.
Lemma xnew_simple n groups e s sw k r : valid_schedule n s -> xok e -> new_simple (parallel im srt) groups (plain e) s sw = Some (k, r) ->
  exists c, new_simple (xparallel grow im srt) groups e s sw = Some (c, r) /\ cmap plain c = k /\ xok (c_ev c).
Proof.
  apply (fwd_new_simple (xparallel grow im srt) (parallel im srt) plain xlive n).
  - intros a dl i pts log b v O _. apply xcalc_ok, O.
  - intros a dl i b O _. apply xupdate_ok, O.
  - intros a dl b. apply xprepare_ok.
  - intros a i j b. apply xswap_ok.
Qed.
Lemma xgenetic_step n cutoff mu s sw g k r : cutoff <= n -> length (c_pop (g_core g)) = n -> valid_schedule (n - cutoff) s -> xok (c_ev (g_core g)) -> genetic_step (parallel im srt) cutoff mu s sw (gmap plain g) = Some (k, r) ->
  exists g', genetic_step (xparallel grow im srt) cutoff mu s sw g = Some (g', r) /\ gmap plain g' = k /\ xok (c_ev (g_core g')).
Proof.
  apply (fwd_genetic_step (xparallel grow im srt) (parallel im srt) plain xlive n).
  - intros a dl i pts log b v O _. apply xcalc_ok, O.
  - intros a dl i b O _. apply xupdate_ok, O.
  - intros a dl b. apply xprepare_ok.
  - intros a dl i j b. apply xbase_ok.
  - intros a i j b. apply xswap_ok.
Qed.
Lemma xnew_genetic n cutoff groups e s sw k r : valid_schedule (n - cutoff) s -> xok e -> new_genetic (parallel im srt) cutoff groups (plain e) s sw = Some (k, r) ->
  exists g, new_genetic (xparallel grow im srt) cutoff groups e s sw = Some (g, r) /\ gmap plain g = k /\ xok (c_ev (g_core g)).
Proof.
  apply (fwd_new_genetic (xparallel grow im srt) (parallel im srt) plain xlive n).
  - intros a dl i pts log b v O _. apply xcalc_ok, O.
  - intros a dl i b O _. apply xupdate_ok, O.
  - intros a dl b. apply xprepare_ok.
  - intros a i j b. apply xswap_ok.
Qed.
End Run.
