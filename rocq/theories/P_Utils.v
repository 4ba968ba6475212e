(** C75-C77: the programs of package utils. *)
From Coq Require Import ZArith Reals List Bool String Ascii Lia Lra.
From Flocq Require Import Core IEEE754.BinarySingleNaN.
From Verif Require Import GoNum FloatLemmas M_Norm S_Norm M_Geom M_Image S_Image L_Image M_Render M_Delaunay S_Delaunay M_Random M_Algo S_Algo L_Algo L_Algo3 P_Algo M_Chan M_Fitness S_Fitness
  S_Run2 L_Run2 P_Run2 P_PolySum M_Default S_Default P_Default M_Utils S_Utils L_Utils.
Import ListNotations.
Open Scope Z_scope.

(** * C75: RunAlgorithm and GenerateAlgorithmOutput *)
(** The text of a point group can be read, and no two groups have the same text. *)
Theorem C75_readable jnum ps s : number_texts jnum -> marshal jnum ps = Some s -> read_points s = Some (map (fun p => (jnum (nx p), jnum (ny p))) ps).
Proof. intros Hj M. exact (read_marshal jnum Hj ps s M). Qed.
Theorem C75_lossless jnum ps qs s : number_texts jnum -> marshal jnum ps = Some s -> marshal jnum qs = Some s -> ps = qs.
Proof.
  intros Hj M N. pose proof (C75_readable jnum ps s Hj M) as A. rewrite (C75_readable jnum qs s Hj N) in A. injection A as A.
  unfold marshal in M, N. destruct (forallb finite_point ps) eqn:F; [|discriminate]. destruct (forallb finite_point qs) eqn:G; [|discriminate].
  exact (pair_inj jnum Hj ps F qs G (eq_sym A)).
Qed.
(** Any algorithm: the lines and the last text are those of the states the loop has visited. *)
Theorem C75_output show jnum al reps oks old a d' a' : output_loop show jnum al reps oks (start_disk true old) a (Running d' a') ->
  exists l, visits al reps a l /\ List.length l = List.length oks /\ a' = final a l /\
    w_file (d_stats d') = List.concat (map (fun b => stats_line show (al_gen al b) (al_fit al b)) l) /\ (oks <> [] -> d_out d' = marshal jnum (al_best al a')).
Proof.
  intros L. destruct (output_loop_files show jnum al reps oks _ a _ L d' a' eq_refl new_sound eq_refl) as (l & V & N & F & W & _ & _ & O). exists l. split; [exact V|]. split; [exact N|]. split; [exact F|]. split; [exact W|exact O].
Qed.
Theorem C75_printed show al reps k a out a' : run_loop show al reps k [] a (Some (out, a')) ->
  exists l, visits al reps a l /\ List.length l = k /\ a' = final a l /\ out = List.concat (map (fun b => stats_line show (al_gen al b) (al_fit al b)) l).
Proof. intros L. exact (run_loop_lines show al reps k [] a _ L out a' eq_refl). Qed.
(** The lines can be read: the first column has the generations, the second the fitnesses. *)
Theorem C75_stats_readable show jnum al reps oks old a d' a' : on_one_line show -> output_loop show jnum al reps oks (start_disk true old) a (Running d' a') ->
  exists l, visits al reps a l /\ List.length l = List.length oks /\ read_stats (w_file (d_stats d')) = Some (map (fun b => (al_gen al b, show (al_fit al b))) l).
Proof.
  intros O L. destruct (C75_output _ _ _ _ _ _ _ _ _ L) as (l & V & N & _ & W & _). exists l. split; [exact V|]. split; [exact N|]. rewrite W.
  pose proof (read_lines_all show (map (fun b => (al_gen al b, al_fit al b)) l) O _ (le_n _)) as R. rewrite !map_map in R. exact R.
Qed.
Theorem C75_printed_readable show al reps k a out a' : on_one_line show -> run_loop show al reps k [] a (Some (out, a')) ->
  exists l, visits al reps a l /\ List.length l = k /\ read_stats out = Some (map (fun b => (al_gen al b, show (al_fit al b))) l).
Proof.
  intros O L. destruct (C75_printed _ _ _ _ _ _ _ L) as (l & V & N & _ & W). exists l. split; [exact V|]. split; [exact N|]. rewrite W.
  pose proof (read_lines_all show (map (fun b => (al_gen al b, al_fit al b)) l) O _ (le_n _)) as R. rewrite !map_map in R. exact R.
Qed.
(** If the stats file cannot be created, the program goes on and says nothing. *)
Theorem C75_no_stats_file show jnum al reps oks d a d' a' : output_loop show jnum al reps oks d a (Running d' a') -> w_open (d_stats d) = false -> w_file (d_stats d') = w_file (d_stats d).
Proof.
  intros L. remember (Running d' a') as o eqn:E. induction L as [d a|ok oks d a b d1 o S W R IH|ok oks d a b d1 S W|ok oks d a S]; intros C; try discriminate; [injection E as <- <-; reflexivity|].
  unfold write_out in W. destruct (marshal jnum (al_best al b)) as [js|]; [|discriminate]. destruct ok; [|discriminate].
  assert (Ed : d1 = Disk (w_flush (w_write (stats_line show (al_gen al b) (al_fit al b)) (d_stats d))) (Some js)) by congruence. clear W. subst d1. cbn [d_stats] in IH.
  destruct (closed_write (stats_line show (al_gen al b) (al_fit al b)) _ C) as [C1 F1]. destruct (closed_flush _ C1) as [C2 F2]. rewrite (IH E C2), F2. exact F1.
Qed.
Theorem C75_no_stats_start show jnum al reps oks old a d' a' : output_loop show jnum al reps oks (start_disk false old) a (Running d' a') -> w_file (d_stats d') = [].
Proof. intros L. exact (C75_no_stats_file _ _ _ _ _ _ _ _ _ L eq_refl). Qed.
(** If all files can be written, log.Fatal comes only when Best is no JSON, and the output file has
    then the text of the iteration before, or what it had before the call. *)
Theorem C75_fatal_keeps show jnum al reps k created old a d' : output_loop show jnum al reps (repeat true k) (start_disk created old) a (Fatal d') ->
  exists l b, visits al reps a l /\ (List.length l < k)%nat /\ step_n al (Z.to_nat reps) (final a l) (Some b) /\ marshal jnum (al_best al b) = None /\
    match l with [] => d_out d' = old | _ => d_out d' = marshal jnum (al_best al (final a l)) end.
Proof.
  assert (G : forall k d a, output_loop show jnum al reps (repeat true k) d a (Fatal d') ->
    exists l b, visits al reps a l /\ (List.length l < k)%nat /\ step_n al (Z.to_nat reps) (final a l) (Some b) /\ marshal jnum (al_best al b) = None /\
      match l with [] => d_out d' = d_out d | _ => d_out d' = marshal jnum (al_best al (final a l)) end).
  { clear. induction k as [|k IH]; intros d a L; cbn [repeat] in L; [inversion L|]. inversion L as [|? ? ? ? b d1 ? S W R|? ? ? ? b d1 S W|]; subst.
    - destruct (IH d1 b R) as (l & c & V & N & S' & M & D). exists (b :: l), c. split; [econstructor; eassumption|]. split; [cbn [List.length]; lia|].
      assert (FE : final a (b :: l) = final b l) by (unfold final; destruct l as [|x l]; [reflexivity|]; cbn [last]; clear; revert x; induction l as [|y l IH]; intros x; [reflexivity|]; exact (IH y)). rewrite FE. split; [exact S'|]. split; [exact M|].
      destruct l as [|x l]; [|exact D]. unfold final. cbn [last]. rewrite D. unfold write_out in W. destruct (marshal jnum (al_best al b)) as [js|]; [|discriminate]. injection W as <-. reflexivity.
    - exists [], b. split; [constructor|]. split; [cbn; lia|]. split; [exact S|]. unfold write_out in W. destruct (marshal jnum (al_best al b)) as [js|]; [discriminate|]. injection W as <-. split; reflexivity. }
  intros L. exact (G k _ a L).
Qed.
Print Assumptions C75_readable.
Print Assumptions C75_lossless.
Print Assumptions C75_output.
Print Assumptions C75_printed.
Print Assumptions C75_stats_readable.
Print Assumptions C75_printed_readable.
Print Assumptions C75_no_stats_file.
Print Assumptions C75_no_stats_start.
Print Assumptions C75_fatal_keeps.

(** The default algorithm. *)
Section Run.
Context (fuel : nat) (srt : point -> list point -> option (list point)) (num : Z) (image : goimage).
Hypothesis Him : usual_image image.
Hypothesis Hsrt : hull_sort srt.
Hypothesis Hnum : num <= 32765.
Hypothesis Hfuel : 2 ^ 56 <= Z.of_nat fuel.
Notation run := (default_run fuel srt num image).
Context (fi : fimg).
Notation al := (default_al srt num fi).

Lemma al_inv a o : run fi a -> al_step al a o -> exists b, o = Some b /\ run fi b.
Proof.
  intros R (d & s & sw & N & V & W & E). destruct (C73_step fuel srt num image Him Hsrt Hnum Hfuel fi a d s sw R N V W) as (c' & r & Es). rewrite Es in E. destruct E as [So ->].
  exists c'. split; [reflexivity|]. eapply dr_step; eassumption.
Qed.
Lemma al_on a : run fi a -> exists b, al_step al a (Some b) /\ run fi b.
Proof.
  intros R. destruct C73_schedule as (s & V). set (d := fun _ _ : nat => GD (f32_dy 0 0) f0 f0). assert (N : number_draws d) by (intros i k; split; reflexivity).
  destruct (C73_runs fuel srt num image Him Hsrt Hnum Hfuel) as (_ & A). destruct (A fi a d s R N V) as (sw & b & r & W & E & Rb). exists b. split; [|exact Rb].
  cbn [al_step default_al]. exists d, s, sw. rewrite E. split; [exact N|]. split; [exact V|]. split; [exact W|]. split; [|reflexivity].
  destruct (default_program fuel srt num image Him Hfuel fi b Rb) as (P & dd & _ & I & _). intros _.
  exact (program_sorted (as_idata dd) default_block fi srt default_cutoff default_size (Z.to_nat num) default_pow2 I Hsrt ltac:(lia) ltac:(unfold default_cutoff; lia) ltac:(unfold default_pow2; lia) b P).
Qed.
Lemma al_marshal jnum a : run fi a -> marshal jnum (al_best al a) <> None.
Proof.
  intros R. destruct (C73_best fuel srt num image Him Hsrt Hnum Hfuel fi a R) as (_ & U & _). unfold marshal. cbn [al_best default_al].
  replace (forallb finite_point (buf a (best_slice a))) with true; [discriminate|]. symmetry. apply forallb_forall. intros p Hp. rewrite Forall_forall in U. destruct (U p Hp) as [[Fx _] [Fy _]].
  unfold finite_point. rewrite Fx, Fy. reflexivity.
Qed.
Lemma al_step_gen a b : run fi a -> al_step al a (Some b) -> stats_gen b = stats_gen a + 1 /\ not_above (stats_best a) (stats_best b).
Proof.
  intros R (d & s & sw & N & V & W & E). destruct (default_step srt num fi d s sw a) as [[c' r]|] eqn:Es; [|discriminate]. destruct E as [So Eb]. injection Eb as <-.
  split; [|exact (C73_monotone fuel srt num image Him Hsrt Hnum Hfuel fi a d s sw b r R N V Es So)].
  destruct (default_program fuel srt num image Him Hfuel fi a R) as (P & dd & _ & I & _).
  pose proof (program_inv (as_idata dd) default_block fi srt default_cutoff default_size (Z.to_nat num) default_pow2 I Hsrt ltac:(lia) ltac:(unfold default_cutoff; lia) ltac:(unfold default_pow2; lia) a P) as Pi.
  destruct (simple_history_shape _ default_cutoff default_size (Z.to_nat num) _ ltac:(unfold default_cutoff; lia) (pi_hist _ _ _ _ _ _ _ Pi)) as [Sh Sq].
  assert (Sh' : shape default_size (Z.to_nat num) a) by (destruct Sh; constructor; assumption).
  assert (Sq' : in_square a) by exact Sq.
  destruct (simple_step_spec (parallel fi srt) default_cutoff (default_mutator num d) s sw default_size (Z.to_nat num) a b r ltac:(unfold default_cutoff; lia) Sh' Sq' (C73_mutator num d N) (finished_valid _ _ V) Es) as (_ & _ & _ & G & _). exact G.
Qed.
Lemma al_step_n n a b : run fi a -> step_n al n a (Some b) -> run fi b /\ stats_gen b = stats_gen a + Z.of_nat n /\ not_above (stats_best a) (stats_best b).
Proof.
  intros R S. remember (Some b) as o eqn:E. revert R E. induction S as [a|n a c o S T IH|n a S]; intros R E; [| |discriminate].
  - injection E as <-. split; [exact R|]. split; [lia|]. apply L_Algo3.not_above_refl. apply finite_num. apply (C73_best fuel srt num image Him Hsrt Hnum Hfuel fi a R).
  - destruct (al_inv a _ R S) as (c' & Ec & Rc). injection Ec as <-. destruct (al_step_gen a c R S) as [G M]. destruct (IH Rc E) as (Rb & G' & M'). split; [exact Rb|]. split; [lia|]. exact (L_Algo3.not_above_trans _ _ _ M M').
Qed.

(** Never a panic; log.Fatal only if a file cannot be written; it goes on as long as one likes. *)
Theorem C75_default_ends show jnum reps oks d c o : run fi c -> output_loop show jnum al reps oks d c o -> o <> Panicked /\ (forall d', o = Fatal d' -> In false oks).
Proof.
  intros R L. apply (output_loop_ends show jnum al reps oks d c o (run fi) L R).
  - intros a Ra S. destruct (step_n_inv al (run fi) al_inv _ _ _ S Ra) as (b & E & _). discriminate.
  - intros a b Ra S. destruct (step_n_inv al (run fi) al_inv _ _ _ S Ra) as (b' & E & Rb). injection E as <-. exact Rb.
  - apply al_marshal.
Qed.
Theorem C75_default_goes_on show jnum reps k d out c : run fi c -> (exists d' c', output_loop show jnum al reps (repeat true k) d c (Running d' c')) /\ (exists out' c', run_loop show al reps k out c (Some (out', c'))).
Proof.
  intros R. split; [apply (output_loop_on show jnum al reps (run fi))|apply (run_loop_on show al reps (run fi))]; try exact R; try apply al_marshal; intros a Ra; apply (step_n_on al (run fi) al_on); exact Ra.
Qed.
(** The columns: the generations go up by [reps], the fitnesses never go down, and each is the
    finite fitness of a Delaunay triangulation of the best points of its state. *)
Theorem C75_default_lines reps c l : run fi c -> visits al reps c l -> 0 <= reps ->
  (forall i b, nth_error l i = Some b -> run fi b /\ stats_gen b = stats_gen c + reps * (Z.of_nat i + 1) /\ not_above (stats_best c) (stats_best b)) /\
  (forall i j a b, (i <= j)%nat -> nth_error l i = Some a -> nth_error l j = Some b -> not_above (stats_best a) (stats_best b)).
Proof.
  intros R V Hr. induction V as [c|c b l S V IH]; [split; [intros [|i] b H|intros [|i] j a b _ H]; discriminate|].
  destruct (al_step_n _ _ _ R S) as (Rb & G & M). rewrite Z2Nat.id in G by exact Hr. destruct (IH Rb) as [A B]. split.
  - intros [|i] x H; cbn [nth_error] in H; [injection H as <-; split; [exact Rb|]; split; [lia|exact M]|].
    destruct (A i x H) as (Rx & Gx & Mx). split; [exact Rx|]. split; [lia|]. exact (L_Algo3.not_above_trans _ _ _ M Mx).
  - intros [|i] [|j] x y L H1 H2; cbn [nth_error] in *; [|injection H1 as <-; apply (A j y H2)|lia|apply (B i j x y); try assumption; lia].
    injection H1 as <-. injection H2 as <-. apply L_Algo3.not_above_refl, finite_num. apply (C73_best fuel srt num image Him Hsrt Hnum Hfuel fi b Rb).
Qed.
(** After at least one iteration the output file has the text of points in the unit square whose
    triangulation has the fitness of the last line. *)
Theorem C75_default_file show jnum reps oks old c d' c' : run fi c -> 0 <= reps -> oks <> [] -> output_loop show jnum al reps oks (start_disk true old) c (Running d' c') ->
  exists pts t lines js, d_out d' = Some js /\ marshal jnum pts = Some js /\ List.length pts = Z.to_nat num /\ Forall pt_in_unit pts /\
    w_file (d_stats d') = lines ++ stats_line show (stats_gen c + reps * Z.of_nat (List.length oks)) (stats_best c') /\
    delaunay_triangulation (g_maxx image) (g_maxy image) (map (mut_point fi) pts) t /\ plain_fitness fi t = Some (stats_best c').
Proof.
  intros R Hr Ne L. destruct (C75_output show jnum al reps oks old c d' c' L) as (l & V & N & F & W & O). specialize (O Ne).
  assert (Nl : l <> []) by (destruct l; [destruct oks; [congruence|discriminate]|discriminate]).
  destruct (exists_last Nl) as (l0 & b & El). assert (Eb : c' = b) by (rewrite F, El; unfold final; apply last_last). subst b.
  destruct (C75_default_lines reps c l R V Hr) as [A _]. destruct (A (List.length l0) c') as (Rc & G & _).
  { rewrite El, nth_error_app2, Nat.sub_diag by lia. reflexivity. }
  destruct (C73_best fuel srt num image Him Hsrt Hnum Hfuel fi c' Rc) as (Ln & U & _ & _ & _ & _ & t & D & Pf).
  destruct (marshal jnum (al_best al c')) as [js|] eqn:M; [|destruct (al_marshal jnum c' Rc M)].
  exists (buf c' (best_slice c')), t, (List.concat (map (fun b => stats_line show (al_gen al b) (al_fit al b)) l0)), js.
  split; [exact O|]. split; [exact M|]. split; [exact Ln|]. split; [exact U|]. split; [|split; [exact D|exact Pf]].
  rewrite W, El, map_app, concat_app. cbn [map List.concat]. rewrite app_nil_r. f_equal. cbn [al_gen al_fit default_al]. f_equal. rewrite G, <- N, El, app_length. cbn [List.length]. f_equal. f_equal. lia.
Qed.
End Run.
Print Assumptions C75_default_ends.
Print Assumptions C75_default_goes_on.
Print Assumptions C75_default_lines.
Print Assumptions C75_default_file.

(** A concrete run: an algorithm that moves one point, two iterations of three Steps. *)
Definition toy : algo := Algo nat (fun n o => o = Some (S n)) (fun n => [NP (f64_dy (Z.of_nat n) (-3)) f1]) (fun n => f64_dy (Z.of_nat n) (-3)) Z.of_nat.
Definition toy_show (x : f64) : bytes :=
  match Bcompare x (f64_dy 3 (-3)), Bcompare x (f64_dy 6 (-3)) with Some Eq, _ => text "0.375" | _, Some Eq => text "0.75" | _, _ => text "1" end.
Lemma toy_steps n : forall a, step_n toy n a (Some (n + a)%nat).
Proof. induction n as [|n IH]; intros a; [constructor|]. econstructor; [reflexivity|]. replace (S n + a)%nat with (n + S a)%nat by lia. apply IH. Qed.
Example C75_case : exists d, output_loop toy_show toy_show toy 3 [true; true] (start_disk true None) 0%nat (Running d 6%nat) /\
  w_file (d_stats d) = text "3, 0.375" ++ newline ++ text "6, 0.75" ++ newline /\ d_out d = Some (text "[{""X"":0.75,""Y"":1}]") /\
  read_points (text "[{""X"":0.75,""Y"":1}]") = Some [(text "0.75", text "1")] /\ marshal toy_show [NP f1 (B754_infinity true)] = None.
Proof.
  eexists. split; [|split; [|split; [|split]]].
  - eapply ol_go; [apply (toy_steps 3%nat 0%nat)|vm_compute; reflexivity|]. eapply ol_go; [apply (toy_steps 3%nat 3%nat)|vm_compute; reflexivity|]. constructor.
  - vm_compute. reflexivity.
  - vm_compute. reflexivity.
  - vm_compute. reflexivity.
  - vm_compute. reflexivity.
Qed.

Example C75_read_case : read_stats (text "3, 0.375" ++ newline ++ text "6, 0.75" ++ newline) = Some [(3, text "0.375"); (6, text "0.75")] /\ read_stats (text "3 0.375" ++ newline) = None.
Proof. split; vm_compute; reflexivity. Qed.
Lemma toy_one_line : on_one_line toy_show.
Proof. intros x. unfold toy_show. destruct (Bcompare x (f64_dy 3 (-3))) as [[]|]; destruct (Bcompare x (f64_dy 6 (-3))) as [[]|]; cbn; intros I; repeat (destruct I as [I|I]; [discriminate I|]); exact I. Qed.

(** * C76: traces and profiles *)
(** The trace file is a beginning of the trace; up to a buffer of it may be missing. *)
Theorem C76_trace al chunks a file a' : generate_trace al true chunks a file a' ->
  (exists rest, List.concat chunks = file ++ rest /\ blen rest <= 4096) /\ step_n al (Z.to_nat 3000) a (Some a').
Proof.
  intros (a1 & S1 & S2 & ->). split.
  - destruct (write_all_sound chunks _ new_sound) as [S T]. cbn [sent new_writer w_file w_buf app] in T. exists (w_buf (write_all chunks (new_writer true))). split; [symmetry; exact T|exact (so_len _ S)].
  - replace (Z.to_nat 3000) with (warm_up + traced)%nat by (unfold warm_up, traced; rewrite <- Z2Nat.inj_add by lia; reflexivity). exact (step_n_app al _ _ _ _ _ S1 S2).
Qed.
(** The file has the whole trace if the last piece is longer than two buffers. *)
Theorem C76_trace_whole al chunks p a file a' : generate_trace al true (chunks ++ [p]) a file a' -> 8192 < blen p -> file = List.concat (chunks ++ [p]).
Proof.
  intros (a1 & _ & _ & ->) Hp. rewrite write_all_app. destruct (write_all_sound chunks _ new_sound) as [S T]. destruct (write_sound p _ S) as [S' T']. pose proof (write_big p _ S Hp) as B.
  cbn [write_all fold_left]. unfold sent in T' at 1. rewrite B, app_nil_r in T'. change (fold_left _ [p] ?w) with (w_write p w). rewrite T', T. cbn [sent new_writer w_file w_buf app].
  rewrite concat_app. cbn [List.concat]. rewrite app_nil_r. reflexivity.
Qed.
(** But the writer is never flushed: the last piece is lost if it is short, and a short trace is
    lost as a whole. *)
Theorem C76_trace_refuted al chunks p q a file a' : generate_trace al true (chunks ++ [p; q]) a file a' -> 8192 < blen p -> 0 < blen q <= 4096 ->
  file = List.concat (chunks ++ [p]) /\ file <> List.concat (chunks ++ [p; q]).
Proof.
  intros (a1 & S1 & S2 & ->) Hp Hq. replace (chunks ++ [p; q]) with ((chunks ++ [p]) ++ [q]) by (rewrite <- app_assoc; reflexivity). rewrite write_all_app.
  pose proof (C76_trace_whole al chunks p a _ a' (ex_intro _ a1 (conj S1 (conj S2 eq_refl))) Hp) as W. destruct (write_all_sound (chunks ++ [p]) _ new_sound) as [S T]. cbn [sent new_writer w_file w_buf app] in T.
  unfold sent in T. rewrite W in T. assert (B : w_buf (write_all (chunks ++ [p]) (new_writer true)) = []).
  { apply blen_nil. apply (f_equal blen) in T. rewrite blen_app in T. lia. }
  change (write_all [q] ?w) with (w_write q w). destruct (write_small q _ S) as [F _]; [rewrite B; change (blen []) with 0; unfold buf_size; lia|].
  rewrite F, W. split; [reflexivity|]. intros E. apply (f_equal blen) in E. rewrite !concat_app in E. cbn [List.concat] in E. rewrite !app_nil_r, !blen_app in E. lia.
Qed.
Theorem C76_short_trace_refuted al chunks a file a' : generate_trace al true chunks a file a' -> blen (List.concat chunks) <= 4096 -> file = [].
Proof.
  intros (a1 & _ & _ & ->) H. assert (G : forall c w, sound w -> blen (w_buf w) + blen (List.concat c) <= 4096 -> w_file (write_all c w) = w_file w).
  { induction c as [|p c IH]; intros w S L; [reflexivity|]. cbn [write_all fold_left List.concat] in *. rewrite blen_app in L. pose proof (blen_nonneg (List.concat c)).
    destruct (write_small p w S ltac:(unfold buf_size; lia)) as [F B]. change (w_file (write_all c (w_write p w)) = w_file w). rewrite IH, F; [reflexivity|apply write_sound, S|rewrite B, blen_app; lia]. }
  rewrite G; [reflexivity|exact new_sound|cbn [new_writer w_buf]; change (blen []) with 0; lia].
Qed.
(** GenerateProfile: five Steps at a time, until the clock shows the seconds. *)
Theorem C76_profile al secs clock k a k' a' : profile_loop al secs clock k a k' a' ->
  (k <= k')%nat /\ step_n al (5 * (k' - k)) a (Some a') /\ flt (clock k') (f64_of_Z secs) = false /\ forall j, (k <= j < k')%nat -> flt (clock j) (f64_of_Z secs) = true.
Proof.
  induction 1 as [k a H|k a a1 k' a' H S P (L & T & D & A)].
  - split; [lia|]. rewrite Nat.sub_diag. split; [constructor|]. split; [exact H|]. intros; lia.
  - split; [lia|]. split; [|split; [exact D|]].
    + replace (5 * (k' - k))%nat with (5 + 5 * (k' - Datatypes.S k))%nat by lia. exact (step_n_app al _ _ _ _ _ S T).
    + intros j Hj. destruct (Nat.eq_dec j k) as [->|Ne]; [exact H|apply A; lia].
Qed.
(** It returns for the default algorithm, if the clock ever shows the seconds. *)
Theorem C76_profile_returns fuel srt num image fi secs clock c K : usual_image image -> hull_sort srt -> num <= 32765 -> 2 ^ 56 <= Z.of_nat fuel ->
  default_run fuel srt num image fi c -> flt (clock K) (f64_of_Z secs) = false -> exists k' c', profile_loop (default_al srt num fi) secs clock 0 c k' c' /\ (k' <= K)%nat.
Proof.
  intros Him Hs Hn Hf R E. assert (G : forall m k c, default_run fuel srt num image fi c -> (k + m = K)%nat -> exists k' c', profile_loop (default_al srt num fi) secs clock k c k' c' /\ (k' <= K)%nat).
  { induction m as [|m IH]; intros k a Ra L; [exists k, a; split; [constructor; replace k with K by lia; exact E|lia]|].
    destruct (flt (clock k) (f64_of_Z secs)) eqn:H; [|exists k, a; split; [constructor; exact H|lia]].
    destruct (step_n_on (default_al srt num fi) (default_run fuel srt num image fi) (al_on fuel srt num image Him Hs Hn Hf fi) 5 a Ra) as (b & S & Rb).
    destruct (IH (Datatypes.S k) b Rb ltac:(lia)) as (k' & c' & P & Lk). exists k', c'. split; [econstructor; eassumption|exact Lk]. }
  exact (G K 0%nat c R eq_refl).
Qed.
Print Assumptions C76_trace.
Print Assumptions C76_trace_whole.
Print Assumptions C76_trace_refuted.
Print Assumptions C76_short_trace_refuted.
Print Assumptions C76_profile.
Print Assumptions C76_profile_returns.
(** A trace of a long piece and a last one of three bytes. *)
Example C76_case : exists file, generate_trace toy true [text "go 1.16 trace"; repeat "x"%char (Z.to_nat 9000); text "end"] 0%nat file (traced + warm_up)%nat /\
  file = text "go 1.16 trace" ++ repeat "x"%char (Z.to_nat 9000) /\
  profile_loop toy 2 (fun k => f64_of_Z (Z.of_nat k)) 0 0%nat 2 10%nat.
Proof.
  eexists. split; [|split].
  - exists warm_up. split; [replace warm_up with (warm_up + 0)%nat at 2 by lia; apply toy_steps|]. split; [apply toy_steps|reflexivity].
  - vm_compute. reflexivity.
  - eapply pl_go; [vm_compute; reflexivity|apply (toy_steps 5%nat 0%nat)|]. eapply pl_go; [vm_compute; reflexivity|apply (toy_steps 5%nat 5%nat)|]. apply pl_done. vm_compute. reflexivity.
Qed.

(** * C77: CompareAlgorithms *)
(** It returns at once: no algorithm is made, no Step is taken, nothing is printed. *)
Theorem C77_compare_refuted body fuel : compare_algorithms body fuel = Some [].
Proof. destruct fuel; reflexivity. Qed.
Print Assumptions C77_compare_refuted.
Example C77_case : compare_algorithms [MakeA; MakeB; StepA; StepB; Print (text "1 1 1")] 5 = Some [] /\ go_for true [MakeA] 5 = None.
Proof. split; reflexivity. Qed.
