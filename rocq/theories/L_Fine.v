(** Calculate and Update step by step: an execution in which the steps of the workers and of the
    collecting loop are interleaved arbitrarily computes what an execution computes in which
    they are single events. *)
From Coq Require Import ZArith List Bool Arith Lia Permutation.
From Verif Require Import GoNum M_Norm M_Slice M_Geom M_Image M_Raster M_Delaunay M_Algo S_Algo M_Fitness S_Fitness M_Fine L_PMap L_Slice L_Algo L_Algo2 L_Algo4 L_Fit L_Fit3 L_Race L_Sched.
Import ListNotations.
Local Open Scope nat_scope.

Lemma do_acts_app {E} (ev : evaluator E) s1 : forall s2 x, do_acts ev (s1 ++ s2) x = match do_acts ev s1 x with None => None | Some y => do_acts ev s2 y end.
Proof. induction s1 as [|a s1 IH]; intros s2 x; cbn [do_acts app]; [reflexivity|]. destruct (do_act ev x a); [apply IH|reflexivity]. Qed.

Lemma NoDup_app_comm_snoc {A} (q : list A) a : NoDup q -> ~ In a q -> NoDup (q ++ [a]).
Proof. intros N Ni. apply (Permutation_NoDup (Permutation_cons_append q a)). constructor; assumption. Qed.
Lemma list_eq_nil_dec {A} (l : list A) : {l = []} + {l <> []}.
Proof. destruct l; [left; reflexivity|right; discriminate]. Qed.

Section Fine.
Context (im : fimg) (srt : point -> list point -> option (list point)).
Notation ev := (parallel im srt).

(* ------------------------------------------------------------------ *)
(** * One worker *)
Section Worker.
Context (arrs0 : list (list (option entry))) (f : tfun) (base0 : option delaunay) (pts : list npoint) (muts : list mut).
Definition calc0 : option (tfun * f64) := calc_fun im srt arrs0 f base0 pts muts.

(** What is left to do in a phase, done without interruption. *)
Definition rest_loop (tri : option delaunay) (l : list dtri) (s : lstate) : option (tfun * f64) :=
  match foldM (tri_step im (shares (tf_cache f))) l s with None => None | Some s' => Some (TF tri None (COwn (l_next s')), fitness_of im s') end.
Definition rest_nil (d : delaunay) : option (tfun * f64) :=
  match cache_view arrs0 (tf_cache f) with None => None | Some (v, _) => rest_loop (Some d) (iter_triangles d) (LS f0 f0 [] v) end.
Definition rest_insert (l : list npoint) (d : delaunay) : option (tfun * f64) :=
  match foldM (fun d q => insert d (mut_point im q)) l d with None => None | Some d' => rest_nil d' end.
Definition rest_remove (l : list mut) (d : delaunay) : option (tfun * f64) :=
  match foldM (fun d m => let p := mut_point im (m_old m) in remove (srt p) d p) l d with None => None | Some d' => rest_insert (map m_new muts) d' end.
Definition rest_set (k : nat) (d : delaunay) : option (tfun * f64) :=
  match base0 with
  | None => None
  | Some o => match foldM (fun d k => set_field k d o) (seq k (5 - k)) d with None => None | Some d' => rest_remove muts d' end
  end.
Definition rest (ph : phase) (d : delaunay) : option (tfun * f64) :=
  match ph with
  | FSet k => rest_set k d
  | FRemove l => rest_remove l d
  | FInsert l => rest_insert l d
  | FNil => rest_nil d
  | FLoop l s => rest_loop (Some d) l s
  | FStart | FDone _ => None
  end.
Lemma foldM_map {A B C} (g : B -> A -> option B) (h : C -> A) l : forall b, foldM g (map h l) b = foldM (fun b x => g b (h x)) l b.
Proof. induction l as [|x l IH]; intros b; cbn [map foldM]; [reflexivity|]. destruct (g b (h x)); [apply IH|reflexivity]. Qed.
Lemma rest_calc d view : match cache_view arrs0 (tf_cache f) with Some (v, a) => match calc_tri im a v d with None => None | Some (fit, next) => Some (TF (Some d) None (COwn next), fit) end | None => view end =
  match cache_view arrs0 (tf_cache f) with None => view | Some _ => rest_nil d end.
Proof.
  unfold rest_nil. destruct (cache_view arrs0 (tf_cache f)) as [[v a]|] eqn:E; [|reflexivity]. assert (Ea : a = shares (tf_cache f)).
  { unfold cache_view in E. destruct (tf_cache f); [injection E; auto|injection E; auto|destruct (nth_error arrs0 k); [injection E; auto|discriminate]]. }
  subst a. unfold calc_tri, rest_loop. destruct (foldM _ _ _); reflexivity.
Qed.
Lemma rest_nil_calc d : rest_nil d = match cache_view arrs0 (tf_cache f) with Some (v, a) => match calc_tri im a v d with None => None | Some (fit, next) => Some (TF (Some d) None (COwn next), fit) end | None => None end.
Proof. rewrite (rest_calc d None). unfold rest_nil. destruct (cache_view arrs0 (tf_cache f)) as [[v a]|]; reflexivity. Qed.
Lemma d_set_fields d o : d_set d o = foldM (fun d k => set_field k d o) (seq 0 5) d.
Proof. unfold d_set. cbn [seq foldM set_field d_tris d_grid d_pmap d_free d_super d_num d_unique option_map]. destruct (grid_set (d_grid d) (d_grid o)); cbn [option_map d_pmap]; [|reflexivity]. destruct (table_set (d_pmap d) (d_pmap o)); reflexivity. Qed.

(** The worker is in the middle of its calculation: [g] is its function now. *)
Definition mid (ph : phase) (g : tfun) : Prop :=
  match ph with
  | FStart => g = f
  | FDone _ => False
  | _ => exists d, tf_tri g = Some d /\ tf_cache g = tf_cache f /\ rest ph d = calc0 /\
           (forall o, tf_base f = None -> tf_tri f = Some o -> d = o /\ match ph with FNil | FLoop _ _ => True | _ => False end) /\
           match ph with
           | FSet k => k <= 4 /\ tf_base g = tf_base f /\ tf_base f <> None
           | FLoop l s => forall k, tf_cache f = CArr k -> nth_error arrs0 k = Some (l_tris s)
           | _ => True
           end
  end.
Lemma mid_keeps ph g o : mid ph g -> tf_base f = None -> tf_tri f = Some o -> tf_tri g = Some o.
Proof. intros M B T. destruct ph; cbn [mid] in M; try (subst; exact T); try contradiction; destruct M as (d & Ed & _ & _ & K & _); destruct (K o B T) as [-> _]; exact Ed. Qed.

Lemma calc0_keeps g v o : calc0 = Some (g, v) -> base0 = None -> tf_tri f = Some o -> tf_tri g = Some o.
Proof.
  unfold calc0, calc_fun, next_tri. intros H B T. rewrite T, B in H. destruct (cache_view arrs0 (tf_cache f)) as [[w a]|]; [|discriminate]. destruct (calc_tri im a w o) as [[x y]|]; [|discriminate]. injection H as <- <-. reflexivity.
Qed.

Lemma mid_step p id ph g : (forall b, tf_base f = Some b -> b <> id /\ exists g' o, nth_error (p_funs p) b = Some g' /\ tf_tri g' = Some o /\ base0 = Some o) -> (tf_base f = None -> base0 = None) ->
  (forall k, tf_cache f = CArr k -> nth_error (p_arrs p) k = nth_error arrs0 k) -> mid ph g ->
  match fun_step im srt p id g pts muts ph with
  | None => calc0 = None
  | Some (g', FDone v) => calc0 = Some (g', v)
  | Some (g', ph') => mid ph' g'
  end.
Proof.
  intros Hb Hn Hv M. assert (Ecv : forall c, c = tf_cache f -> cache_view (p_arrs p) c = cache_view arrs0 (tf_cache f)).
  { intros c ->. unfold cache_view. destruct (tf_cache f) as [|l|k]; try reflexivity. rewrite (Hv k eq_refl). reflexivity. }
  destruct ph as [|k|l|l| |l s|v]; cbn [mid] in M; try contradiction; cbn [fun_step].
  - subst g. destruct (tf_tri f) as [d|] eqn:Et.
    + destruct (tf_base f) as [b|] eqn:Eb.
      * destruct (Hb b eq_refl) as (Nb & g' & o & _ & _ & Eo). apply Nat.eqb_neq in Nb. rewrite Nb. cbn [mid]. exists d. split; [exact Et|]. split; [reflexivity|]. split; [|split; [intros o' H; congruence|rewrite Eb; split; [lia|split; [reflexivity|discriminate]]]].
        cbn [rest]. unfold rest_set, calc0, calc_fun, next_tri. rewrite Et, Eo, d_set_fields. cbn [Nat.sub]. destruct (foldM (fun d0 k => set_field k d0 o) (seq 0 5) d) as [d1|]; [|reflexivity].
        unfold rest_remove. destruct (foldM _ muts d1) as [d2|]; [|reflexivity]. unfold rest_insert. rewrite foldM_map. destruct (foldM _ muts d2) as [d3|]; [|reflexivity]. apply rest_nil_calc.
      * cbn [mid]. exists d. split; [exact Et|]. split; [reflexivity|]. split; [|split; [intros o _ H; split; [congruence|exact I]|exact I]].
        cbn [rest]. unfold calc0, calc_fun, next_tri. rewrite Et, (Hn eq_refl). apply rest_nil_calc.
    + destruct (new_delaunay (fi_w im) (fi_h im)) as [d|] eqn:Ed; cbn [option_map].
      * cbn [mid tf_tri tf_cache]. exists d. split; [reflexivity|]. split; [reflexivity|]. split; [|split; [intros o _ H; congruence|exact I]].
        cbn [rest]. unfold calc0, calc_fun, next_tri. rewrite Et, Ed. unfold rest_insert. destruct (foldM _ pts d) as [d1|]; [|reflexivity]. apply rest_nil_calc.
      * unfold calc0, calc_fun, next_tri. rewrite Et, Ed. reflexivity.
  - destruct M as (d & Ed & Ec & Er & Kp & Hk & Eb & Nb). rewrite Ed, Eb. destruct (tf_base f) as [b|] eqn:Ef; [|congruence]. destruct (Hb b eq_refl) as (_ & g' & o & Eg & Eo & E0). rewrite Eg, Eo.
    cbn [rest] in Er. unfold rest_set in Er. rewrite E0 in Er. replace (5 - k) with (S (5 - S k)) in Er by lia. cbn [seq foldM] in Er. destruct (set_field k d o) as [d1|] eqn:E1; cbn [option_map]; [|congruence].
    destruct (Nat.ltb_spec k 4) as [L|L]; cbn [mid tf_tri tf_cache tf_base]; exists d1; (split; [reflexivity|]); (split; [exact Ec|]); (split; [|split; [intros o' H; congruence|]]).
    + cbn [rest]. unfold rest_set. rewrite E0. exact Er.
    + split; [lia|]. rewrite Ef. split; [reflexivity|discriminate].
    + cbn [rest]. assert (k = 4) by lia. subst k. cbn [Nat.sub seq foldM] in Er. exact Er.
    + exact I.
  - destruct M as (d & Ed & Ec & Er & Kp & _). destruct l as [|m l]; cbn [fun_step].
    + cbn [mid]. exists d. split; [exact Ed|]. split; [exact Ec|]. split; [exact Er|]. split; [|exact I]. intros o B T. destruct (Kp o B T) as [_ []].
    + rewrite Ed. cbn [rest] in Er. unfold rest_remove in Er. cbn [foldM] in Er. cbv zeta in *. destruct (remove (srt (mut_point im (m_old m))) d (mut_point im (m_old m))) as [d1|]; cbn [option_map]; [|congruence].
      cbn [mid tf_tri tf_cache]. exists d1. split; [reflexivity|]. split; [exact Ec|]. split; [exact Er|]. split; [|exact I]. intros o B T. destruct (Kp o B T) as [_ []].
  - destruct M as (d & Ed & Ec & Er & Kp & _). destruct l as [|m l]; cbn [fun_step].
    + cbn [mid]. exists d. split; [exact Ed|]. split; [exact Ec|]. split; [exact Er|]. split; [|exact I]. intros o B T. destruct (Kp o B T) as [_ []].
    + rewrite Ed. cbn [rest] in Er. unfold rest_insert in Er. cbn [foldM] in Er. destruct (insert d (mut_point im m)) as [d1|]; cbn [option_map]; [|congruence].
      cbn [mid tf_tri tf_cache]. exists d1. split; [reflexivity|]. split; [exact Ec|]. split; [exact Er|]. split; [|exact I]. intros o B T. destruct (Kp o B T) as [_ []].
  - destruct M as (d & Ed & Ec & Er & Kp & _). rewrite Ed, (Ecv _ Ec). cbn [rest] in Er. unfold rest_nil in Er. destruct (cache_view arrs0 (tf_cache f)) as [[v a]|] eqn:Ev; [|congruence].
    cbn [mid tf_tri tf_cache]. exists d. split; [reflexivity|]. split; [exact Ec|]. split; [exact Er|]. split; [intros o B T; destruct (Kp o B T); auto|].
    intros k Ek. rewrite Ek in Ev. cbn [cache_view] in Ev. cbn [l_tris]. destruct (nth_error arrs0 k); [injection Ev as -> _; reflexivity|discriminate].
  - destruct M as (d & Ed & Ec & Er & Kp & Lt). cbn [rest] in Er. unfold rest_loop in Er. destruct l as [|t l]; cbn [fun_step].
    + cbn [foldM] in Er. rewrite Ed. congruence.
    + cbn [foldM] in Er. assert (Es : seen_now p g s = Some (l_tris s)).
      { unfold seen_now. rewrite Ec. destruct (tf_cache f) as [|x|k]; try reflexivity. rewrite (Hv k eq_refl). apply Lt. reflexivity. }
      rewrite Es, Ec. replace (LS (l_diff s) (l_area s) (l_next s) (l_tris s)) with s by (destruct s; reflexivity). destruct (tri_step im (shares (tf_cache f)) s t) as [s'|] eqn:Est; cbn [option_map]; [|congruence].
      cbn [mid]. exists d. split; [exact Ed|]. split; [exact Ec|]. split; [exact Er|]. split; [intros o B T; destruct (Kp o B T); auto|]. intros k Ek. rewrite (Lt k Ek). f_equal.
      rewrite Ek in Est. cbn [shares] in Est. unfold tri_step in Est. cbv zeta in Est. destruct (znth (l_tris s) _); [|discriminate]. destruct (match o with Some e => _ | None => _ end); [|discriminate]. injection Est as <-. reflexivity.
Qed.
End Worker.

(* ------------------------------------------------------------------ *)
(** * All of them *)
(** What holds when the workers start: distinct functions, caches that are not written while
    they run, bases that are not in the middle of anything. *)
Record fit_start (lim : nat) (e : par) : Prop := {
  fs_nd : NoDup (p_order e); fs_cur : p_cur e < 2; fs_alen : length (p_arrs e) = 2;
  fs_pos : forall i, i < lim -> exists id f, nth_error (p_order e) i = Some id /\ nth_error (p_funs e) id = Some f /\ (tf_cache f = CInit \/ tf_cache f = CArr (p_cur e)) /\
    forall b, tf_base f = Some b -> b <> id /\ exists g o, nth_error (p_funs e) b = Some g /\ tf_tri g = Some o /\ tf_base g = None }.

Section Sim.
Context (lim : nat) (c0 : core par).
Notation e0 := (c_ev c0).
Hypothesis H0 : fit_start lim e0.

Definition base_of (f : tfun) : option delaunay := match tf_base f with None => None | Some b => match nth_error (p_funs e0) b with None => None | Some g => tf_tri g end end.
Definition upd (a : list (option entry)) (d : option entry) : option (list (option entry)) := match d with None => None | Some e => zset a (e_hash e) (Some e) end.

(** The function of position i: [f] at the start, [g] in the fine state, [h] in the coarse one. *)
Definition wpos (q : list act) (r : results) (i : nat) (ph : phase) (f g h : tfun) : Prop :=
  match ph with
  | FDone v => In (Calc i) q /\ g = h /\ result r i = Some v /\ (forall o, tf_base f = None -> tf_tri f = Some o -> tf_tri h = Some o)
  | _ => ~ In (Calc i) q /\ h = f /\ exists a ms, nth_error (c_pop c0) i = Some a /\ nth_error (c_muts c0) i = Some ms /\ mid (p_arrs e0) f (base_of f) (buf c0 a) ms ph g
  end.

Record sim (q : list act) (st : fstate) (cc : core par) : Prop := {
  j_f : fs_core st = with_ev (with_fits c0 (c_fits (fs_core st))) (c_ev (fs_core st));
  j_c : cc = with_ev (with_fits c0 (c_fits cc)) (c_ev cc);
  j_order : p_order (c_ev (fs_core st)) = p_order e0 /\ p_order (c_ev cc) = p_order e0;
  j_cur : p_cur (c_ev (fs_core st)) = p_cur (c_ev cc) /\ p_cur (c_ev cc) = if fs_prep st then 1 - p_cur e0 else p_cur e0;
  j_prep : In Prep q <-> fs_prep st = true;
  j_arr : nth_error (p_arrs (c_ev cc)) (p_cur e0) = nth_error (p_arrs e0) (p_cur e0) /\ nth_error (p_arrs (c_ev (fs_core st))) (p_cur e0) = nth_error (p_arrs e0) (p_cur e0);
  j_alen : length (p_arrs (c_ev cc)) = 2;
  j_len : length (fs_work st) = lim;
  j_pos : forall i, i < lim -> exists id f g h ph, nth_error (p_order e0) i = Some id /\ nth_error (p_funs e0) id = Some f /\ nth_error (p_funs (c_ev (fs_core st))) id = Some g /\
    nth_error (p_funs (c_ev cc)) id = Some h /\ nth_error (fs_work st) i = Some ph /\ wpos q (fs_res st) i ph f g h;
  j_out : forall id, (forall i, i < lim -> nth_error (p_order e0) i <> Some id) -> nth_error (p_funs (c_ev (fs_core st))) id = nth_error (p_funs e0) id /\ nth_error (p_funs (c_ev cc)) id = nth_error (p_funs e0) id;
  j_main : match fs_main st with
           | None => p_arrs (c_ev (fs_core st)) = p_arrs (c_ev cc) /\ c_fits (fs_core st) = c_fits cc
           | Some (i, l) => i < lim /\ In (Calc i) q /\ ~ In (Recv i) q /\ fs_prep st = true /\ exists v id h view al arr arr', result (fs_res st) i = Some v /\ put i v (c_fits cc) = Some (c_fits (fs_core st)) /\
               nth_error (p_order e0) i = Some id /\ nth_error (p_funs (c_ev cc)) id = Some h /\ cache_view (p_arrs (c_ev cc)) (tf_cache h) = Some (view, al) /\
               nth_error (p_arrs (c_ev cc)) (p_cur (c_ev cc)) = Some arr /\ p_arrs (c_ev (fs_core st)) = set_nth (p_cur (c_ev cc)) arr' (p_arrs (c_ev cc)) /\ foldM upd l arr' = foldM upd view arr
           end;
  j_got : forall i, In i (fs_got st) <-> In (Recv i) q \/ exists l, fs_main st = Some (i, l);
  j_res : forall i, result (fs_res st) i <> None -> In (Calc i) q;
  j_lt : forall i, In (Calc i) q -> i < lim;
  j_ord : ordered q;
  j_run : do_acts ev q (c0, []) = Some (cc, fs_res st) }.

Lemma pos_dec id : (exists i, i < lim /\ nth_error (p_order e0) i = Some id) \/ forall i, i < lim -> nth_error (p_order e0) i <> Some id.
Proof.
  clear H0. generalize (p_order e0). intros l. induction lim as [|m IH]; [right; intros; lia|]. destruct IH as [(i & Hi & E)|N]; [left; exists i; split; [lia|exact E]|].
  destruct (nth_error l m) as [k|] eqn:E; [destruct (Nat.eq_dec k id) as [->|Nk]; [left; exists m; split; [lia|exact E]|]|]; right; intros i Hi Ei; (destruct (Nat.eq_dec i m) as [->|Ni]; [congruence|apply (N i); [lia|exact Ei]]).
Qed.
Lemma sim_keeps q st cc : sim q st cc -> forall b g0 o, nth_error (p_funs e0) b = Some g0 -> tf_tri g0 = Some o -> tf_base g0 = None ->
  (exists g, nth_error (p_funs (c_ev (fs_core st))) b = Some g /\ tf_tri g = Some o) /\ exists h, nth_error (p_funs (c_ev cc)) b = Some h /\ tf_tri h = Some o.
Proof.
  intros J b g0 o Eb Et En. destruct (pos_dec b) as [(j & Hj & Ej)|N].
  - destruct (j_pos _ _ _ J j Hj) as (id & f & g & h & ph & E1 & E2 & E3 & E4 & E5 & W). rewrite Ej in E1. injection E1 as <-. rewrite Eb in E2. injection E2 as <-.
    unfold wpos in W. destruct ph; try (destruct W as (_ & -> & a & ms & _ & _ & M); split; [exists g; split; [exact E3|]; eapply mid_keeps; eauto|exists g0; auto]).
    destruct W as (_ & <- & _ & K). split; exists g; (split; [assumption|apply K; assumption]).
  - destruct (j_out _ _ _ J b N) as [A B]. split; exists g0; (split; [congruence|exact Et]).
Qed.
Lemma ordered_snoc q a : ordered q -> ~ In a q -> (forall i, a = Recv i -> In (Calc i) q /\ In Prep q) -> ordered (q ++ [a]).
Proof.
  intros [N H] Ni Hr. split.
  - apply NoDup_app_comm_snoc; assumption.
  - intros l1 i l2 E. destruct (list_eq_nil_dec l2) as [->|Nl].
    + apply app_inj_tail in E as [-> ->]. apply Hr. reflexivity.
    + destruct (exists_last Nl) as (l3 & x & ->). rewrite app_comm_cons, app_assoc in E. apply app_inj_tail in E as [-> _]. apply (H l1 i l3). reflexivity.
Qed.

Lemma sim_fields q st cc : sim q st cc -> (c_store (fs_core st) = c_store c0 /\ c_pop (fs_core st) = c_pop c0 /\ c_muts (fs_core st) = c_muts c0) /\ (c_store cc = c_store c0 /\ c_pop cc = c_pop c0 /\ c_muts cc = c_muts c0).
Proof. intros J. pose proof (j_f _ _ _ J) as A. pose proof (j_c _ _ _ J) as B. rewrite A, B. repeat split. Qed.
Lemma set_funs_nth p id f g k : nth_error (p_funs p) id = Some f -> nth_error (p_funs (set_fun p id g)) k = if id =? k then Some g else nth_error (p_funs p) k.
Proof.
  intros E. cbn [set_fun p_funs]. rewrite nth_error_set_nth. destruct (Nat.eqb_spec id k) as [<-|]; [|reflexivity]. assert (L : id < length (p_funs p)) by (apply nth_error_Some; congruence).
  apply Nat.ltb_lt in L. rewrite L. reflexivity.
Qed.
Lemma work_base q st cc i id f : sim q st cc -> i < lim -> nth_error (p_order e0) i = Some id -> nth_error (p_funs e0) id = Some f ->
  (forall b, tf_base f = Some b -> b <> id /\ (exists g o, nth_error (p_funs (c_ev (fs_core st))) b = Some g /\ tf_tri g = Some o /\ base_of f = Some o) /\ exists h o, nth_error (p_funs (c_ev cc)) b = Some h /\ tf_tri h = Some o /\ base_of f = Some o) /\
  (tf_base f = None -> base_of f = None) /\
  (forall k, tf_cache f = CArr k -> nth_error (p_arrs (c_ev (fs_core st))) k = nth_error (p_arrs e0) k /\ nth_error (p_arrs (c_ev cc)) k = nth_error (p_arrs e0) k).
Proof.
  intros J Hi Ei Ef. destruct (fs_pos _ _ H0 i Hi) as (id' & f' & E1 & E2 & Tg & B). rewrite Ei in E1. injection E1 as <-. rewrite Ef in E2. injection E2 as <-. split; [|split].
  - intros b Eb. destruct (B b Eb) as (Nb & g0 & o & E3 & E4 & E5). destruct (sim_keeps _ _ _ J b g0 o E3 E4 E5) as [(g & G1 & G2) (h & K1 & K2)]. assert (E6 : base_of f = Some o) by (unfold base_of; rewrite Eb, E3; exact E4).
    split; [exact Nb|]. split; [exists g, o|exists h, o]; auto.
  - unfold base_of. intros ->. reflexivity.
  - intros k Ek. destruct Tg as [Tg|Tg]; rewrite Tg in Ek; [discriminate|]. injection Ek as <-. destruct (j_arr _ _ _ J); auto.
Qed.
Lemma coarse_calc q st cc i id f a ms : sim q st cc -> i < lim -> nth_error (p_order e0) i = Some id -> nth_error (p_funs e0) id = Some f -> nth_error (p_funs (c_ev cc)) id = Some f ->
  nth_error (c_pop c0) i = Some a -> nth_error (c_muts c0) i = Some ms ->
  do_act ev (cc, fs_res st) (Calc i) = match calc0 (p_arrs e0) f (base_of f) (buf c0 a) ms with None => None | Some (g, v) => Some (with_ev cc (set_fun (c_ev cc) id g), (i, v) :: fs_res st) end.
Proof.
  intros J Hi Ei Ef Ec Ea Em. destruct (work_base q st cc i id f J Hi Ei Ef) as (B & Bn & V). destruct (sim_fields _ _ _ J) as [_ (S1 & S2 & S3)]. cbn [do_act]. rewrite S2, S3, Ea, Em.
  cbn [parallel ev_calc]. unfold par_calc, at_pos. rewrite (proj2 (j_order _ _ _ J)), Ei, Ec. cbn [option_map].
  assert (Eb : (match tf_base f with Some b => b =? id | None => false end) = false) by (destruct (tf_base f) as [b|]; [apply Nat.eqb_neq, (B b eq_refl)|reflexivity]). rewrite Eb. cbv zeta.
  assert (Ebase : match tf_base f with None => None | Some b => match nth_error (p_funs (c_ev cc)) b with None => None | Some g => tf_tri g end end = base_of f).
  { destruct (tf_base f) as [b|] eqn:Eb'; [|symmetry; apply Bn; reflexivity]. destruct (B b eq_refl) as (_ & _ & h & o & G1 & G2 & G3). rewrite G1, G2, G3. reflexivity. }
  rewrite Ebase. assert (Ebuf : buf cc a = buf c0 a) by (unfold buf; rewrite S1; reflexivity). rewrite Ebuf.
  assert (Ecalc : calc_fun im srt (p_arrs (c_ev cc)) f (base_of f) (buf c0 a) ms = calc0 (p_arrs e0) f (base_of f) (buf c0 a) ms).
  { unfold calc0, calc_fun. assert (Ev : cache_view (p_arrs (c_ev cc)) (tf_cache f) = cache_view (p_arrs e0) (tf_cache f)) by (unfold cache_view; destruct (tf_cache f) as [|l|k]; try reflexivity; destruct (V k eq_refl) as [_ ->]; reflexivity). rewrite Ev. reflexivity. }
  rewrite Ecalc. unfold set_fun. rewrite (proj2 (j_order _ _ _ J)). destruct (calc0 _ _ _ _ _) as [[g v]|]; cbn [option_map fst snd]; reflexivity.
Qed.
Definition admissible (q : list act) (b : act) : Prop := ~ In b q /\ match b with Prep => True | Calc i => i < lim | Recv i => i < lim /\ In (Calc i) q /\ In Prep q end.
Lemma wpos_snoc q r i ph f g h b : b <> Calc i -> wpos q r i ph f g h -> wpos (q ++ [b]) r i ph f g h.
Proof.
  intros N. unfold wpos. assert (X : ~ In (Calc i) q -> ~ In (Calc i) (q ++ [b])) by (intros K H; apply in_app_iff in H as [H|[H|[]]]; congruence).
  destruct ph; try (intros (A & B); split; [apply X, A|exact B]). intros (A & B). split; [apply in_app_iff; auto|exact B].
Qed.
Lemma result_cons i v (r : results) j : result ((i, v) :: r) j = if i =? j then Some v else result r j.
Proof. unfold result. cbn [find fst]. destruct (i =? j); reflexivity. Qed.
Lemma wpos_res q r i ph f g h j v : j <> i -> wpos q r i ph f g h -> wpos q ((j, v) :: r) i ph f g h.
Proof. intros N. unfold wpos. destruct ph; try (intros H; exact H). intros (A & B & C & D). rewrite result_cons. apply Nat.eqb_neq in N. rewrite N. auto. Qed.

Lemma work_step q st cc i : sim q st cc -> enabled st (FWork i) ->
  match fine_step im srt st (FWork i) with
  | None => exists b, admissible q b /\ do_act ev (cc, fs_res st) b = None
  | Some st' => sim q st' cc \/ exists b cc', admissible q b /\ sim (q ++ [b]) st' cc'
  end.
Proof.
  intros J (ph & Eph & Nd). assert (Hi : i < lim) by (rewrite <- (j_len _ _ _ J); apply nth_error_Some; congruence).
  destruct (j_pos _ _ _ J i Hi) as (id & f & g & h & ph' & E1 & E2 & E3 & E4 & E5 & W). rewrite Eph in E5. injection E5 as <-.
  assert (W' : ~ In (Calc i) q /\ h = f /\ exists a ms, nth_error (c_pop c0) i = Some a /\ nth_error (c_muts c0) i = Some ms /\ mid (p_arrs e0) f (base_of f) (buf c0 a) ms ph g).
  { unfold wpos in W. destruct ph; try exact W. exfalso. apply (Nd v). reflexivity. }
  clear W. destruct W' as (Nq & -> & a & ms & Ea & Em & M). destruct (sim_fields _ _ _ J) as [(S1 & S2 & S3) _]. destruct (work_base q st cc i id f J Hi E1 E2) as (B & Bn & V).
  pose proof (coarse_calc q st cc i id f a ms J Hi E1 E2 E4 Ea Em) as Co.
  cbn [fine_step]. rewrite Eph, S2, S3, Ea, Em. unfold at_pos. rewrite (proj1 (j_order _ _ _ J)), E1, E3. cbn [option_map]. assert (Ebuf : buf (fs_core st) a = buf c0 a) by (unfold buf; rewrite S1; reflexivity). rewrite Ebuf.
  assert (X : match fun_step im srt (c_ev (fs_core st)) id g (buf c0 a) ms ph with
     | None => calc0 (p_arrs e0) f (base_of f) (buf c0 a) ms = None
     | Some (g', FDone v) => calc0 (p_arrs e0) f (base_of f) (buf c0 a) ms = Some (g', v)
     | Some (g', ph') => mid (p_arrs e0) f (base_of f) (buf c0 a) ms ph' g' end).
  { apply mid_step; [|exact Bn| |exact M].
    - intros b Eb. destruct (B b Eb) as (Nb & G & _). auto.
    - intros k Ek. apply V, Ek. }
  destruct (fun_step im srt (c_ev (fs_core st)) id g (buf c0 a) ms ph) as [[g' ph']|] eqn:Efs.
  2:{ exists (Calc i). split; [split; [exact Nq|exact Hi]|]. rewrite Co, X. reflexivity. }
  assert (Lw : i < length (fs_work st)) by (rewrite (j_len _ _ _ J); exact Hi).
  assert (Oth : forall j jd, j < lim -> j <> i -> nth_error (p_order e0) j = Some jd -> id <> jd).
  { intros j jd Hj Nj Ej ->. apply Nj. apply (nodup_pos _ _ _ _ (fs_nd _ _ H0) Ej E1). }
  assert (Ph : forall j, j <> i -> nth_error (set_nth i ph' (fs_work st)) j = nth_error (fs_work st) j).
  { intros j Nj. rewrite nth_error_set_nth. destruct (Nat.eqb_spec i j); [congruence|reflexivity]. }
  assert (Phi : nth_error (set_nth i ph' (fs_work st)) i = Some ph').
  { rewrite nth_error_set_nth, Nat.eqb_refl. apply Nat.ltb_lt in Lw. rewrite Lw. reflexivity. }
  assert (D : (exists v, ph' = FDone v) \/ forall v, ph' <> FDone v) by (destruct ph'; try (right; discriminate); left; eauto). destruct D as [(v & ->)|Nd'].
  - right. exists (Calc i), (with_ev cc (set_fun (c_ev cc) id g')). rewrite X in Co. assert (Adm : admissible q (Calc i)) by (split; assumption). split; [exact Adm|].
    assert (Inq : forall x, In x (q ++ [Calc i]) <-> In x q \/ x = Calc i) by (intros x; rewrite in_app_iff; cbn [In]; intuition congruence).
    constructor; cbn [fs_core fs_work fs_main fs_prep fs_got fs_res with_ev with_fits c_store c_pop c_newpop c_best c_muts c_bestfit c_gen c_ev c_fits].
    + pose proof (j_f _ _ _ J) as A. rewrite A. reflexivity.
    + pose proof (j_c _ _ _ J) as A. rewrite A. reflexivity.
    + exact (j_order _ _ _ J).
    + exact (j_cur _ _ _ J).
    + rewrite Inq, <- (j_prep _ _ _ J). intuition discriminate.
    + exact (j_arr _ _ _ J).
    + exact (j_alen _ _ _ J).
    + rewrite set_nth_length. apply J.
    + intros j Hj. destruct (Nat.eq_dec j i) as [->|Nj].
      * exists id, f, g', g', (FDone v). rewrite !(set_funs_nth _ _ _ _ _ E3), !(set_funs_nth _ _ _ _ _ E4), Nat.eqb_refl. split; [exact E1|]. split; [exact E2|]. split; [reflexivity|]. split; [reflexivity|]. split; [exact Phi|].
        cbn [wpos]. split; [apply Inq; auto|]. split; [reflexivity|]. split; [rewrite result_cons, Nat.eqb_refl; reflexivity|]. intros o B' T. eapply calc0_keeps; [exact X|apply Bn, B'|exact T].
      * destruct (j_pos _ _ _ J j Hj) as (jd & fj & gj & hj & phj & F1 & F2 & F3 & F4 & F5 & F6). exists jd, fj, gj, hj, phj. pose proof (Oth j jd Hj Nj F1) as Nid. apply Nat.eqb_neq in Nid.
        rewrite (set_funs_nth _ _ _ _ _ E3), (set_funs_nth _ _ _ _ _ E4), Nid, Ph by exact Nj. repeat (split; [assumption|]). apply wpos_res; [congruence|]. apply wpos_snoc; [congruence|exact F6].
    + intros k Nk. assert (Nid : id <> k) by (intros ->; apply (Nk i Hi E1)). apply Nat.eqb_neq in Nid. rewrite (set_funs_nth _ _ _ _ _ E3), (set_funs_nth _ _ _ _ _ E4), Nid. apply (j_out _ _ _ J k Nk).
    + cbn [set_fun p_arrs p_cur]. pose proof (j_main _ _ _ J) as Mn. destruct (fs_main st) as [[m l]|]; [|exact Mn]. destruct Mn as (A1 & A2 & A3 & A4 & v' & md & hm & view & al & arr & arr' & R1 & R2 & R3 & R4 & R5).
      assert (Nm : m <> i) by congruence. split; [exact A1|]. split; [apply Inq; auto|]. split; [rewrite Inq; intros [H|H]; [contradiction|discriminate]|]. split; [exact A4|]. exists v', md, hm, view, al, arr, arr'.
      pose proof (Oth m md A1 Nm R3) as Nid. apply Nat.eqb_neq in Nid. fold (set_fun (c_ev cc) id g'). rewrite (set_funs_nth _ _ _ _ _ E4), Nid. rewrite result_cons. assert (Nm' : i =? m = false) by (apply Nat.eqb_neq; congruence). rewrite Nm'.
      split; [exact R1|]. split; [exact R2|]. split; [exact R3|]. split; [exact R4|exact R5].
    + intros j. rewrite (j_got _ _ _ J j), Inq. intuition discriminate.
    + intros j. rewrite result_cons, Inq. destruct (Nat.eqb_spec i j) as [->|]; [auto|]. intros H. left. apply (j_res _ _ _ J), H.
    + intros j Hj. apply Inq in Hj as [Hj|[= ->]]; [apply (j_lt _ _ _ J), Hj|exact Hi].
    + apply ordered_snoc; [apply J|exact Nq|discriminate].
    + rewrite do_acts_app, (j_run _ _ _ J). cbn [do_acts]. rewrite Co. reflexivity.
  - left. assert (Er : match ph' with FDone v => (i, v) :: fs_res st | _ => fs_res st end = fs_res st) by (destruct ph'; try reflexivity; exfalso; apply (Nd' v); reflexivity). rewrite Er.
    assert (M' : mid (p_arrs e0) f (base_of f) (buf c0 a) ms ph' g') by (destruct ph'; try exact X; exfalso; apply (Nd' v); reflexivity).
    constructor; cbn [fs_core fs_work fs_main fs_prep fs_got fs_res with_ev with_fits c_store c_pop c_newpop c_best c_muts c_bestfit c_gen c_ev c_fits]; try exact (j_c _ _ _ J); try exact (j_prep _ _ _ J); try exact (j_order _ _ _ J); try exact (j_cur _ _ _ J); try exact (j_arr _ _ _ J); try exact (j_alen _ _ _ J); try exact (j_got _ _ _ J); try exact (j_res _ _ _ J); try exact (j_lt _ _ _ J); try exact (j_ord _ _ _ J); try exact (j_run _ _ _ J).
    + pose proof (j_f _ _ _ J) as A. rewrite A. reflexivity.
    + rewrite set_nth_length. apply J.
    + intros j Hj. destruct (Nat.eq_dec j i) as [->|Nj].
      * exists id, f, g', f, ph'. rewrite (set_funs_nth _ _ _ _ _ E3), Nat.eqb_refl. repeat (split; [first [assumption|reflexivity]|]). unfold wpos.
        assert (Y : ~ In (Calc i) q /\ f = f /\ exists a0 ms0, nth_error (c_pop c0) i = Some a0 /\ nth_error (c_muts c0) i = Some ms0 /\ mid (p_arrs e0) f (base_of f) (buf c0 a0) ms0 ph' g') by (split; [exact Nq|]; split; [reflexivity|]; exists a, ms; auto).
        destruct ph'; try exact Y. exfalso; apply (Nd' v); reflexivity.
      * destruct (j_pos _ _ _ J j Hj) as (jd & fj & gj & hj & phj & F1 & F2 & F3 & F4 & F5 & F6). exists jd, fj, gj, hj, phj. pose proof (Oth j jd Hj Nj F1) as Nid. apply Nat.eqb_neq in Nid.
        rewrite (set_funs_nth _ _ _ _ _ E3), Nid, Ph by exact Nj. repeat (split; [assumption|]). exact F6.
    + intros k Nk. assert (Nid : id <> k) by (intros ->; apply (Nk i Hi E1)). apply Nat.eqb_neq in Nid. rewrite (set_funs_nth _ _ _ _ _ E3), Nid. apply (j_out _ _ _ J k Nk).
    + exact (j_main _ _ _ J).
Qed.

Lemma set_nth_twice {A} k (a b : A) l : set_nth k a (set_nth k b l) = set_nth k a l.
Proof. apply nth_error_ext. intros i. rewrite !nth_error_set_nth, set_nth_length. destruct (k =? i); reflexivity. Qed.
Lemma cur_other q st cc : sim q st cc -> fs_prep st = true -> p_cur (c_ev cc) <> p_cur e0 /\ p_cur (c_ev cc) < 2.
Proof. intros J P. destruct (j_cur _ _ _ J) as [_ E]. rewrite P in E. pose proof (fs_cur _ _ H0). lia. Qed.
Lemma done_pos q st cc i : sim q st cc -> In (Calc i) q -> exists id f g v, nth_error (p_order e0) i = Some id /\ nth_error (p_funs e0) id = Some f /\ nth_error (p_funs (c_ev (fs_core st))) id = Some g /\
  nth_error (p_funs (c_ev cc)) id = Some g /\ nth_error (fs_work st) i = Some (FDone v) /\ wpos q (fs_res st) i (FDone v) f g g.
Proof.
  intros J I. destruct (j_pos _ _ _ J i (j_lt _ _ _ J i I)) as (id & f & g & h & ph & E1 & E2 & E3 & E4 & E5 & W).
  destruct ph; try (destruct W as (N & _); contradiction). pose proof W as (_ & E & _). subst h. exists id, f, g, v. auto 10.
Qed.

Lemma prep_step q st cc : sim q st cc -> enabled st FPrep -> exists st', fine_step im srt st FPrep = Some st' /\ exists cc', admissible q Prep /\ sim (q ++ [Prep]) st' cc'.
Proof.
  intros J P. cbn [enabled] in P. assert (Nq : ~ In Prep q) by (rewrite (j_prep _ _ _ J); congruence). eexists. split; [reflexivity|].
  set (e := Par (p_funs (c_ev cc)) (p_order (c_ev cc)) (p_arrs (c_ev cc)) (1 - p_cur (c_ev cc))). exists (with_ev cc e). split; [split; [exact Nq|exact I]|].
  assert (Inq : forall x, In x (q ++ [Prep]) <-> In x q \/ x = Prep) by (intros x; rewrite in_app_iff; cbn [In]; intuition congruence).
  constructor; cbn [fs_core fs_work fs_main fs_prep fs_got fs_res with_ev with_fits c_store c_pop c_newpop c_best c_muts c_bestfit c_gen c_ev c_fits p_funs p_order p_arrs p_cur e]; try exact (j_order _ _ _ J); try exact (j_arr _ _ _ J); try exact (j_alen _ _ _ J); try exact (j_len _ _ _ J); try exact (j_out _ _ _ J).
  - pose proof (j_f _ _ _ J) as A. rewrite A. reflexivity.
  - pose proof (j_c _ _ _ J) as A. rewrite A. reflexivity.
  - destruct (j_cur _ _ _ J) as [A B]. rewrite P in B. split; congruence.
  - rewrite Inq. intuition.
  - intros i Hi. destruct (j_pos _ _ _ J i Hi) as (id & f & g & h & ph & E1 & E2 & E3 & E4 & E5 & W). exists id, f, g, h, ph. repeat (split; [assumption|]). apply wpos_snoc; [discriminate|exact W].
  - pose proof (j_main _ _ _ J) as Mn. destruct (fs_main st) as [[m l]|]; [destruct Mn as (_ & _ & _ & H & _); congruence|exact Mn].
  - intros i. rewrite (j_got _ _ _ J i), Inq. intuition discriminate.
  - intros i H. apply Inq. left. apply (j_res _ _ _ J), H.
  - intros i H. apply Inq in H as [H|H]; [apply (j_lt _ _ _ J), H|discriminate].
  - apply ordered_snoc; [apply J|exact Nq|discriminate].
  - rewrite do_acts_app, (j_run _ _ _ J). reflexivity.
Qed.

Lemma recv_step q st cc i : sim q st cc -> enabled st (FRecv i) ->
  match fine_step im srt st (FRecv i) with
  | None => exists b, admissible q b /\ do_act ev (cc, fs_res st) b = None
  | Some st' => sim q st' cc
  end.
Proof.
  intros J (P & Mn & Rn & Ng). pose proof (j_res _ _ _ J i Rn) as Ic. pose proof (j_lt _ _ _ J i Ic) as Hi. destruct (done_pos q st cc i J Ic) as (id & f & g & v & E1 & E2 & E3 & E4 & E5 & W).
  pose proof W as (_ & _ & Rv & _). pose proof (j_main _ _ _ J) as Jm. rewrite Mn in Jm. destruct Jm as [Ja Jf]. assert (Nr : ~ In (Recv i) q) by (intros H; apply Ng, (j_got _ _ _ J); auto).
  assert (Ip : In Prep q) by (apply (j_prep _ _ _ J), P). assert (Adm : admissible q (Recv i)) by (split; [exact Nr|auto]).
  cbn [fine_step]. unfold at_pos. rewrite Rv, (proj1 (j_order _ _ _ J)), E1, E3. cbn [option_map]. rewrite Ja, Jf.
  destruct (put i v (c_fits cc)) as [fs|] eqn:Ep.
  2:{ exists (Recv i). split; [exact Adm|]. cbn [do_act]. rewrite Rv, Ep. reflexivity. }
  destruct (cache_view (p_arrs (c_ev cc)) (tf_cache g)) as [[view al]|] eqn:Ev.
  2:{ exists (Recv i). split; [exact Adm|]. cbn [do_act]. rewrite Rv, Ep. cbn [parallel ev_update]. unfold par_update, at_pos. rewrite (proj2 (j_order _ _ _ J)), E1, E4. cbn [option_map]. rewrite Ev. reflexivity. }
  destruct (nth_error (p_arrs (c_ev cc)) (p_cur (c_ev cc))) as [arr|] eqn:Ear.
  2:{ exfalso. apply nth_error_None in Ear. rewrite (j_alen _ _ _ J) in Ear. pose proof (proj2 (cur_other _ _ _ J P)). lia. }
  constructor; cbn [fs_core fs_work fs_main fs_prep fs_got fs_res with_ev with_fits c_store c_pop c_newpop c_best c_muts c_bestfit c_gen c_ev c_fits]; try exact (j_c _ _ _ J); try exact (j_order _ _ _ J); try exact (j_cur _ _ _ J); try exact (j_prep _ _ _ J); try exact (j_arr _ _ _ J); try exact (j_alen _ _ _ J); try exact (j_len _ _ _ J); try exact (j_pos _ _ _ J); try exact (j_out _ _ _ J); try exact (j_res _ _ _ J); try exact (j_lt _ _ _ J); try exact (j_ord _ _ _ J); try exact (j_run _ _ _ J).
  - pose proof (j_f _ _ _ J) as A. rewrite A. reflexivity.
  - split; [exact Hi|]. split; [exact Ic|]. split; [exact Nr|]. split; [exact P|]. exists v, id, g, view, al, arr, arr. repeat (split; [assumption|]). split; [|reflexivity]. rewrite set_nth_same; [exact Ja|exact Ear].
  - intros j. cbn [In]. rewrite (j_got _ _ _ J j), Mn. split.
    + intros [->|[H|(l & H)]]; [right; eauto|auto|discriminate].
    + intros [H|(l & [= -> _])]; auto.
Qed.

Lemma upd_step q st cc : sim q st cc -> enabled st FUpd ->
  match fine_step im srt st FUpd with
  | None => exists b, admissible q b /\ do_act ev (cc, fs_res st) b = None
  | Some st' => sim q st' cc \/ exists b cc', admissible q b /\ sim (q ++ [b]) st' cc'
  end.
Proof.
  intros J Mn. cbn [enabled] in Mn. cbn [fine_step]. pose proof (j_main _ _ _ J) as Jm. pose proof (j_got _ _ _ J) as Jg. destruct (fs_main st) as [[i l]|] eqn:Em; [clear Mn|contradiction].
  destruct Jm as (Hi & Ic & Nr & P & v & id' & h & view & al & arr & arr' & Rv & Ep & E1' & E4' & Ev & Ear & Earf & Efold).
  destruct (done_pos q st cc i J Ic) as (id & f & g & w & E1 & E2 & E3 & E4 & E5 & W). rewrite E1 in E1'. injection E1' as <-. rewrite E4 in E4'. injection E4' as <-.
  assert (Ip : In Prep q) by (apply (j_prep _ _ _ J), P). assert (Adm : admissible q (Recv i)) by (split; [exact Nr|auto]). destruct (cur_other _ _ _ J P) as [Nc Lc].
  assert (Co : do_act ev (cc, fs_res st) (Recv i) = match foldM upd view arr with None => None | Some a' => Some (with_ev (with_fits cc (c_fits (fs_core st)))
      (Par (set_nth id (TF (tf_tri g) (tf_base g) (CArr (p_cur (c_ev cc)))) (p_funs (c_ev cc))) (p_order (c_ev cc)) (set_nth (p_cur (c_ev cc)) a' (p_arrs (c_ev cc))) (p_cur (c_ev cc))), fs_res st) end).
  { cbn [do_act]. rewrite Rv, Ep. cbn [parallel ev_update]. unfold par_update. assert (Ea : at_pos (c_ev cc) i = Some (id, g)) by (unfold at_pos; rewrite (proj2 (j_order _ _ _ J)), E1, E4; reflexivity). rewrite Ea, Ev, Ear.
    change (fun a d => match d with Some e => zset a (e_hash e) (Some e) | None => None end) with upd. destruct (foldM upd view arr); reflexivity. }
  destruct (j_cur _ _ _ J) as [Cf Cc].
  assert (Lar : p_cur (c_ev cc) < length (p_arrs (c_ev cc))) by (rewrite (j_alen _ _ _ J); exact Lc).
  assert (Nif : nth_error (p_arrs (c_ev (fs_core st))) (p_cur (c_ev (fs_core st))) = Some arr') by (rewrite Cf, Earf, nth_error_set_nth, Nat.eqb_refl; apply Nat.ltb_lt in Lar; rewrite Lar; reflexivity).
  destruct l as [|d l].
  - unfold at_pos. rewrite (proj1 (j_order _ _ _ J)), E1, E3. cbn [option_map]. cbn [foldM] in Efold. rewrite <- Efold in Co. right. exists (Recv i), (with_ev (with_fits cc (c_fits (fs_core st))) (Par (set_nth id (TF (tf_tri g) (tf_base g) (CArr (p_cur (c_ev cc)))) (p_funs (c_ev cc))) (p_order (c_ev cc)) (set_nth (p_cur (c_ev cc)) arr' (p_arrs (c_ev cc))) (p_cur (c_ev cc)))). split; [exact Adm|].
    assert (Inq : forall x, In x (q ++ [Recv i]) <-> In x q \/ x = Recv i) by (intros x; rewrite in_app_iff; cbn [In]; intuition congruence).
    assert (Run : do_acts ev (q ++ [Recv i]) (c0, []) = Some (with_ev (with_fits cc (c_fits (fs_core st)))
      (Par (set_nth id (TF (tf_tri g) (tf_base g) (CArr (p_cur (c_ev cc)))) (p_funs (c_ev cc))) (p_order (c_ev cc)) (set_nth (p_cur (c_ev cc)) arr' (p_arrs (c_ev cc))) (p_cur (c_ev cc))), fs_res st)) by (rewrite do_acts_app, (j_run _ _ _ J); cbn [do_acts]; rewrite Co; reflexivity).
    set (fn := TF (tf_tri g) (tf_base g) (CArr (p_cur (c_ev cc)))) in *.
    assert (Sf : forall k, nth_error (set_nth id fn (p_funs (c_ev cc))) k = if id =? k then Some fn else nth_error (p_funs (c_ev cc)) k) by (intros k; apply (set_funs_nth (c_ev cc) id g fn k E4)).
    constructor; cbn [fs_core fs_work fs_main fs_prep fs_got fs_res with_ev with_fits c_store c_pop c_newpop c_best c_muts c_bestfit c_gen c_ev c_fits p_order p_arrs p_cur p_funs]; rewrite ?Cf; fold fn; [| | | | | | | | | | | | | | |exact Run].
    + pose proof (j_f _ _ _ J) as A. rewrite A. reflexivity.
    + pose proof (j_c _ _ _ J) as A. rewrite A. reflexivity.
    + exact (j_order _ _ _ J).
    + cbn [set_fun p_cur]. split; [exact Cf|exact Cc].
    + rewrite Inq, <- (j_prep _ _ _ J). intuition discriminate.
    + cbn [set_fun p_arrs]. rewrite nth_error_set_nth. destruct (Nat.eqb_spec (p_cur (c_ev cc)) (p_cur e0)); [contradiction|]. exact (j_arr _ _ _ J).
    + rewrite set_nth_length. apply J.
    + apply J.
    + intros j Hj. destruct (j_pos _ _ _ J j Hj) as (jd & fj & gj & hj & phj & F1 & F2 & F3 & F4 & F5 & F6). destruct (Nat.eq_dec id jd) as [<-|Nid].
      * assert (j = i) by (apply (nodup_pos _ _ _ _ (fs_nd _ _ H0) F1 E1)). subst j. exists id, f, fn, fn, (FDone w). rewrite ?(set_funs_nth _ _ _ fn id E3), ?Sf, ?Nat.eqb_refl. repeat (split; [first [assumption|reflexivity]|]).
        destruct W as (_ & _ & W3 & W4). cbn [wpos]. split; [apply Inq; auto|]. split; [reflexivity|]. split; [exact W3|exact W4].
      * exists jd, fj, gj, hj, phj. apply Nat.eqb_neq in Nid. rewrite ?(set_funs_nth _ _ _ fn jd E3), ?Sf, ?Nid. repeat (split; [assumption|]). apply wpos_snoc; [discriminate|exact F6].
    + intros k Nk. assert (Nid : id <> k) by (intros ->; apply (Nk i Hi E1)). apply Nat.eqb_neq in Nid. rewrite (set_funs_nth _ _ _ fn k E3), Sf, Nid. apply (j_out _ _ _ J k Nk).
    + split; [exact Earf|reflexivity].
    + intros j. rewrite (Jg j), Inq. split; [intros [H|(l & [= -> _])]; auto|intros [[H|[= ->]]|(l & H)]; [auto|right; eauto|discriminate]].
    + intros j H. apply Inq. left. apply (j_res _ _ _ J), H.
    + intros j H. apply Inq in H as [H|H]; [apply (j_lt _ _ _ J), H|discriminate].
    + apply ordered_snoc; [apply J|exact Nr|intros j [= <-]; auto].
  - rewrite Nif. cbn [foldM] in Efold. destruct d as [e|]; cbn [upd] in Efold.
    2:{ exists (Recv i). split; [exact Adm|]. rewrite Co, <- Efold. reflexivity. }
    destruct (zset arr' (e_hash e) (Some e)) as [arr''|] eqn:Ez; cbn [option_map].
    2:{ exists (Recv i). split; [exact Adm|]. rewrite Co, <- Efold. reflexivity. }
    left. constructor; cbn [fs_core fs_work fs_main fs_prep fs_got fs_res with_ev with_fits c_store c_pop c_newpop c_best c_muts c_bestfit c_gen c_ev c_fits p_order p_arrs p_cur p_funs]; try exact (j_c _ _ _ J); try exact (j_order _ _ _ J); try exact (j_cur _ _ _ J); try exact (j_prep _ _ _ J); try exact (j_alen _ _ _ J); try exact (j_len _ _ _ J); try exact (j_pos _ _ _ J); try exact (j_out _ _ _ J); try exact (j_res _ _ _ J); try exact (j_lt _ _ _ J); try exact (j_ord _ _ _ J); try exact (j_run _ _ _ J).
    + pose proof (j_f _ _ _ J) as A. rewrite A. reflexivity.
    + split; [exact (proj1 (j_arr _ _ _ J))|]. rewrite nth_error_set_nth, Cf. destruct (Nat.eqb_spec (p_cur (c_ev cc)) (p_cur e0)); [contradiction|]. exact (proj2 (j_arr _ _ _ J)).
    + split; [exact Hi|]. split; [exact Ic|]. split; [exact Nr|]. split; [exact P|]. exists v, id, g, view, al, arr, arr''. repeat (split; [assumption|]). split; [|exact Efold]. rewrite Cf, Earf. apply set_nth_twice.
    + intros j. rewrite (Jg j). split; (intros [H|(l' & [= -> _])]; [auto|right; eauto]).
Qed.

Lemma sim_start : length (c_pop c0) >= lim -> length (c_muts c0) >= lim -> sim [] (fine_start lim c0) c0.
Proof.
  intros Lp Lm. constructor; unfold fine_start; cbn [fs_core fs_work fs_main fs_prep fs_got fs_res].
  - destruct c0; reflexivity.
  - destruct c0; reflexivity.
  - auto.
  - auto.
  - split; [intros []|discriminate].
  - auto.
  - apply H0.
  - apply repeat_length.
  - intros i Hi. destruct (fs_pos _ _ H0 i Hi) as (id & f & E1 & E2 & _). exists id, f, f, f, FStart. repeat (split; [assumption|]). split; [apply nth_error_repeat, Hi|]. cbn [wpos]. split; [intros []|]. split; [reflexivity|].
    destruct (nth_error (c_pop c0) i) as [a|] eqn:Ea; [|apply nth_error_None in Ea; lia]. destruct (nth_error (c_muts c0) i) as [ms|] eqn:Em; [|apply nth_error_None in Em; lia]. exists a, ms. repeat split.
  - auto.
  - auto.
  - intros i. split; [intros []|intros [[]|(l & H)]; discriminate].
  - intros i H. exfalso. apply H. reflexivity.
  - intros i [].
  - split; [constructor|]. intros l1 i l2 E. destruct l1; discriminate.
  - reflexivity.
Qed.

(** Every fine execution is, event by event, a coarse one. *)
Lemma sim_run t : forall st, length (c_pop c0) >= lim -> length (c_muts c0) >= lim -> fine_run im srt (fine_start lim c0) t st -> exists q cc, sim q st cc.
Proof.
  intros st Lp Lm R. remember (fine_start lim c0) as s0 eqn:E0. induction R as [s|s t st1 a st2 R IH En Es].
  - subst s. exists [], c0. apply sim_start; assumption.
  - destruct (IH E0) as (q & cc & J). destruct a as [i| |i|].
    + pose proof (work_step q st1 cc i J En) as X. rewrite Es in X. destruct X as [X|(b & cc' & _ & X)]; eauto.
    + destruct (prep_step q st1 cc J En) as (st' & E' & cc' & _ & X). rewrite Es in E'. injection E' as <-. eauto.
    + pose proof (recv_step q st1 cc i J En) as X. rewrite Es in X. eauto.
    + pose proof (upd_step q st1 cc J En) as X. rewrite Es in X. destruct X as [X|(b & cc' & _ & X)]; eauto.
Qed.
End Sim.
End Fine.
