(** Lemmas on package utils: the buffered writer, the JSON text, the loops. *)
From Coq Require Import ZArith List Bool String Ascii Lia DecimalString DecimalPos DecimalZ.
From Flocq Require Import IEEE754.BinarySingleNaN.
From Verif Require Import GoNum M_Norm M_Utils S_Utils.
Import ListNotations.
Open Scope Z_scope.

(** * The writer *)
Lemma blen_app p q : blen (p ++ q) = blen p + blen q.
Proof. unfold blen. rewrite app_length, Nat2Z.inj_add. reflexivity. Qed.
Lemma blen_nonneg p : 0 <= blen p. Proof. unfold blen. lia. Qed.
Lemma blen_firstn n (p : bytes) : (n <= List.length p)%nat -> blen (firstn n p) = Z.of_nat n.
Proof. intros H. unfold blen. rewrite firstn_length_le by exact H. reflexivity. Qed.
Lemma blen_skipn n (p : bytes) : (n <= List.length p)%nat -> blen (skipn n p) = blen p - Z.of_nat n.
Proof. intros H. unfold blen. rewrite skipn_length. lia. Qed.
Lemma blen_nil p : blen p = 0 -> p = [].
Proof. destruct p; [reflexivity|]. unfold blen. cbn [List.length]. lia. Qed.

(** A writer over an open file with nothing lost. *)
Record sound (w : bwriter) : Prop := { so_open : w_open w = true; so_err : w_err w = false; so_len : blen (w_buf w) <= buf_size }.
Definition sent (w : bwriter) : bytes := w_file w ++ w_buf w.

Lemma flush_sound w : sound w -> sound (w_flush w) /\ w_file (w_flush w) = sent w /\ w_buf (w_flush w) = [].
Proof.
  destruct w as [o f b e]. intros [O E L]. cbn [w_open w_err w_buf] in *. subst. unfold w_flush, raw_write, sent. cbn [w_open w_err w_buf w_file].
  destruct b as [|x b]; [rewrite app_nil_r; repeat split; cbn; unfold buf_size; try reflexivity; lia|].
  cbn [w_open w_err w_buf w_file]. repeat split; cbn; unfold buf_size; try reflexivity; lia.
Qed.
Lemma write_sound p w : sound w -> sound (w_write p w) /\ sent (w_write p w) = sent w ++ p.
Proof.
  destruct w as [o f b e]. intros [O E L]. cbn [w_open w_err w_buf] in *. subst. unfold w_write, available. cbn [w_open w_err w_buf w_file].
  destruct (Z.ltb_spec (buf_size - blen b) (blen p)) as [H|H].
  - destruct b as [|x b].
    + unfold raw_write, sent. cbn [w_open w_err w_buf w_file]. rewrite !app_nil_r. split; [constructor; [reflexivity|reflexivity|exact L]|reflexivity].
    + set (b0 := x :: b) in *. set (n := Z.to_nat (buf_size - blen b0)).
      assert (N : (n <= List.length p)%nat) by (unfold blen in *; lia).
      set (w0 := to_buffer (firstn n p) (BW true f b0 false)).
      assert (S0 : sound w0).
      { constructor; [reflexivity|reflexivity|]. unfold w0, to_buffer. cbn [w_buf]. rewrite blen_app, blen_firstn by exact N. unfold n. rewrite Z2Nat.id by lia. lia. }
      destruct (flush_sound w0 S0) as (S1 & F1 & B1). rewrite (so_err _ S1). rewrite B1. replace (blen []) with 0 by reflexivity.
      assert (T : sent w0 = (f ++ b0) ++ firstn n p) by (unfold w0, sent, to_buffer; cbn [w_file w_buf]; apply app_assoc).
      destruct (Z.ltb_spec (buf_size - 0) (blen (skipn n p))) as [K|K].
      * unfold raw_write. rewrite (so_open _ S1), B1, F1, (so_err _ S1), T. split; [constructor; cbn; unfold buf_size; try reflexivity; lia|].
        unfold sent. cbn [w_file w_buf]. rewrite app_nil_r, <- app_assoc, firstn_skipn. reflexivity.
      * unfold to_buffer. rewrite B1, F1, T. split; [constructor; [cbn [w_open]; apply S1|cbn [w_err]; apply S1|cbn [w_buf app]; lia]|].
        unfold sent. cbn [w_file w_buf app]. rewrite <- app_assoc, firstn_skipn. reflexivity.
  - unfold to_buffer, sent. cbn [w_open w_err w_buf w_file]. split; [constructor; cbn [w_open w_err w_buf]; try reflexivity; rewrite blen_app; lia|]. apply app_assoc.
Qed.
(** Data of more than two buffers go to the file at once. *)
Lemma write_big p w : sound w -> 2 * buf_size < blen p -> w_buf (w_write p w) = [].
Proof.
  destruct w as [o f b e]. intros [O E L] Hp. cbn [w_open w_err w_buf] in *. subst. unfold w_write, available. cbn [w_open w_err w_buf w_file]. pose proof (blen_nonneg b).
  assert (P0 : 0 < buf_size) by reflexivity.
  destruct (Z.ltb_spec (buf_size - blen b) (blen p)) as [H1|H1]; [|lia]. destruct b as [|x b]; [reflexivity|].
  set (b0 := x :: b) in *. set (n := Z.to_nat (buf_size - blen b0)). assert (N : (n <= List.length p)%nat) by (unfold blen in *; lia).
  set (w0 := to_buffer (firstn n p) (BW true f b0 false)).
  assert (S0 : sound w0).
  { constructor; [reflexivity|reflexivity|]. unfold w0, to_buffer. cbn [w_buf]. rewrite blen_app, blen_firstn by exact N. unfold n. rewrite Z2Nat.id by lia. lia. }
  destruct (flush_sound w0 S0) as (S1 & F1 & B1). rewrite (so_err _ S1), B1. replace (blen []) with 0 by reflexivity.
  destruct (Z.ltb_spec (buf_size - 0) (blen (skipn n p))) as [K|K]; [unfold raw_write; rewrite (so_open _ S1); exact B1|].
  rewrite blen_skipn in K by exact N. unfold n in K. rewrite Z2Nat.id in K by lia. lia.
Qed.
(** Data that fit stay in the buffer. *)
Lemma write_small p w : sound w -> blen (w_buf w) + blen p <= buf_size -> w_file (w_write p w) = w_file w /\ w_buf (w_write p w) = w_buf w ++ p.
Proof.
  intros S H. unfold w_write. rewrite (so_err _ S). unfold available. destruct (Z.ltb_spec (buf_size - blen (w_buf w)) (blen p)); [lia|]. split; reflexivity.
Qed.
Lemma write_all_sound chunks : forall w, sound w -> sound (write_all chunks w) /\ sent (write_all chunks w) = sent w ++ List.concat chunks.
Proof.
  induction chunks as [|p r IH]; intros w S; cbn [write_all fold_left List.concat]; [rewrite app_nil_r; auto|].
  destruct (write_sound p w S) as [S1 T1]. destruct (IH _ S1) as [S2 T2]. split; [exact S2|]. unfold write_all in T2. rewrite T2, T1, <- app_assoc. reflexivity.
Qed.
Lemma new_sound : sound (new_writer true).
Proof. constructor; cbn; unfold buf_size; try reflexivity; lia. Qed.
Lemma write_all_app p q w : write_all (p ++ q) w = write_all q (write_all p w).
Proof. apply fold_left_app. Qed.
(** A file that could not be created stays empty. *)
Lemma closed_write p w : w_open w = false -> w_open (w_write p w) = false /\ w_file (w_write p w) = w_file w.
Proof.
  destruct w as [o f b e]. cbn [w_open]. intros ->. unfold w_write. cbn [w_err]. destruct e; [auto|]. unfold available. cbn [w_buf].
  destruct (_ <? _); [|auto]. destruct b as [|x b]; [auto|]. unfold w_flush, to_buffer, raw_write. cbn [w_open w_err w_buf w_file app]. auto.
Qed.
Lemma closed_flush w : w_open w = false -> w_open (w_flush w) = false /\ w_file (w_flush w) = w_file w.
Proof. destruct w as [o f b e]. cbn [w_open]. intros ->. unfold w_flush. cbn [w_err w_buf]. destruct e; [auto|]. destruct b; [auto|]. unfold raw_write. cbn. auto. Qed.

(** * The text of point groups *)
Lemma expect_app p s : expect p (p ++ s) = Some s.
Proof. induction p as [|c p IH]; [reflexivity|]. cbn [expect app]. rewrite Ascii.eqb_refl. exact IH. Qed.
Lemma number_app n c s : forallb number_char n = true -> number_char c = false -> number (n ++ c :: s) = (n, c :: s).
Proof.
  induction n as [|d n IH]; cbn [app number forallb]; intros H E; [rewrite E; reflexivity|]. apply andb_true_iff in H as [H1 H2]. rewrite H1, (IH H2 E). reflexivity.
Qed.
Section Json.
Context (jnum : f64 -> bytes).
Hypothesis Hj : number_texts jnum.
Definition pair_of (p : npoint) : bytes * bytes := (jnum (nx p), jnum (ny p)).
Lemma read_point_app p s : finite_point p = true -> read_point (json_point jnum p ++ s) = Some (pair_of p, s).
Proof.
  unfold finite_point. rewrite andb_true_iff. intros [Fx Fy]. destruct (proj1 Hj _ Fx) as [Nx Cx]. destruct (proj1 Hj _ Fy) as [Ny Cy].
  unfold read_point, json_point, pair_of. rewrite <- !app_assoc, expect_app.
  change (text ",""Y"":" ++ jnum (ny p) ++ text "}" ++ s) with ("," :: text """Y"":" ++ jnum (ny p) ++ text "}" ++ s)%char.
  rewrite (number_app (jnum (nx p)) "," (text """Y"":" ++ jnum (ny p) ++ text "}" ++ s) Cx eq_refl).
  change ("," :: text """Y"":" ++ jnum (ny p) ++ text "}" ++ s)%char with (text ",""Y"":" ++ (jnum (ny p) ++ text "}" ++ s)). rewrite expect_app.
  change (text "}" ++ s) with ("}" :: s)%char. rewrite (number_app (jnum (ny p)) "}" s Cy eq_refl). change ("}" :: s)%char with (text "}" ++ s). rewrite expect_app.
  destruct (jnum (nx p)); [congruence|]. destruct (jnum (ny p)); [congruence|]. reflexivity.
Qed.
Lemma json_point_len p : (1 <= List.length (json_point jnum p))%nat.
Proof. unfold json_point. rewrite app_length. cbn. lia. Qed.
Lemma read_rest_list ps : ps <> [] -> forallb finite_point ps = true -> forall fuel, (List.length ps <= fuel)%nat -> read_rest fuel (json_list jnum ps ++ text "]") = Some (map pair_of ps).
Proof.
  induction ps as [|p [|q ps] IH]; intros Ne F fuel L; [congruence| |].
  - destruct fuel; [cbn in L; lia|]. cbn [json_list read_rest]. cbn [forallb] in F. rewrite andb_true_r in F. rewrite read_point_app by exact F. reflexivity.
  - destruct fuel; [cbn in L; lia|]. cbn [forallb] in F. apply andb_true_iff in F as [F1 F2]. change (json_list jnum (p :: q :: ps)) with (json_point jnum p ++ text "," ++ json_list jnum (q :: ps)).
    cbn [read_rest]. rewrite <- !app_assoc, read_point_app by exact F1. cbn [text list_ascii_of_string app]. replace (Ascii.eqb "," ",") with true by reflexivity.
    change (json_list jnum (q :: ps) ++ "]"%char :: []) with (json_list jnum (q :: ps) ++ text "]"). rewrite IH; [reflexivity|congruence|exact F2|cbn [List.length] in *; lia].
Qed.
Lemma json_list_len ps : (List.length ps <= List.length (json_list jnum ps))%nat.
Proof.
  induction ps as [|p [|q ps] IH]; [cbn; lia|pose proof (json_point_len p); cbn [json_list List.length] in *; lia|].
  change (json_list jnum (p :: q :: ps)) with (json_point jnum p ++ text "," ++ json_list jnum (q :: ps)). rewrite !app_length. pose proof (json_point_len p). cbn [List.length] in *. lia.
Qed.
Lemma read_marshal ps s : marshal jnum ps = Some s -> read_points s = Some (map pair_of ps).
Proof.
  unfold marshal. destruct (forallb finite_point ps) eqn:F; [|discriminate]. intros [= <-].
  destruct ps as [|p r]; [reflexivity|]. set (ps := p :: r) in *. pose proof (json_list_len ps) as L.
  assert (L2 : (1 <= List.length (json_list jnum ps))%nat) by (unfold ps in *; cbn [List.length] in L; lia).
  unfold read_points. cbn [text list_ascii_of_string app]. replace (Ascii.eqb "[" "[") with true by reflexivity.
  change (json_list jnum ps ++ ["]"%char]) with (json_list jnum ps ++ text "]").
  pose proof (read_rest_list ps ltac:(unfold ps; congruence) F (List.length (json_list jnum ps ++ text "]")) ltac:(rewrite app_length; lia)) as R.
  destruct (json_list jnum ps ++ text "]") as [|c [|d t]] eqn:E; [|apply (f_equal (@List.length ascii)) in E; rewrite app_length in E; cbn [List.length text list_ascii_of_string] in E; lia|exact R].
  apply (f_equal (@List.length ascii)) in E. rewrite app_length in E. cbn in E. lia.
Qed.
Lemma pair_inj ps : forallb finite_point ps = true -> forall qs, forallb finite_point qs = true -> map pair_of ps = map pair_of qs -> ps = qs.
Proof.
  induction ps as [|p ps IH]; intros F [|q qs] G; try discriminate; [reflexivity|]. cbn [map forallb] in *. apply andb_true_iff in F as [F1 F2]. apply andb_true_iff in G as [G1 G2].
  unfold finite_point in F1, G1. apply andb_true_iff in F1 as [Fx Fy]. apply andb_true_iff in G1 as [Gx Gy]. intros H. apply (f_equal (@List.tl (bytes * bytes))) in H as H2. apply (f_equal (@List.hd_error (bytes * bytes))) in H as H1.
  cbn [tl hd_error] in H1, H2. unfold pair_of in H1. injection H1 as Ex Ey. apply (proj2 Hj) in Ex; [|exact Fx|exact Gx]. apply (proj2 Hj) in Ey; [|exact Fy|exact Gy].
  rewrite (IH F2 qs G2 H2). f_equal. destruct p, q. cbn in *. congruence.
Qed.
End Json.

(** * The loops *)
Lemma final_cons {A} (a b : A) l : final a (b :: l) = final b l.
Proof. unfold final. revert a b. induction l as [|c l IH]; intros a b; [reflexivity|]. change (last (b :: c :: l) a) with (last (c :: l) a). rewrite (IH a c), (IH b c). reflexivity. Qed.
Section Loops.
Context (show jnum : f64 -> bytes) (al : algo).
Notation line := (fun a => stats_line show (al_gen al a) (al_fit al a)).
(** What RunAlgorithm has printed. *)
Lemma run_loop_lines reps k out a r : run_loop show al reps k out a r -> forall out' a', r = Some (out', a') ->
  exists l, visits al reps a l /\ List.length l = k /\ a' = final a l /\ out' = out ++ List.concat (map line l).
Proof.
  induction 1 as [out a|k out a b o S R IH|k out a S]; intros out' a' E.
  - injection E as <- <-. exists []. split; [constructor|]. split; [reflexivity|]. split; [reflexivity|]. symmetry. apply app_nil_r.
  - destruct (IH _ _ E) as (l & V & L & F & O). exists (b :: l). split; [constructor; assumption|]. split; [cbn; congruence|]. split; [rewrite final_cons; exact F|].
    rewrite O. cbn [map List.concat]. rewrite <- app_assoc. reflexivity.
  - discriminate.
Qed.
(** What GenerateAlgorithmOutput has written. *)
Lemma output_loop_files reps oks d a o : output_loop show jnum al reps oks d a o -> forall d' a', o = Running d' a' -> sound (d_stats d) -> w_buf (d_stats d) = [] ->
  exists l, visits al reps a l /\ List.length l = List.length oks /\ a' = final a l /\ w_file (d_stats d') = w_file (d_stats d) ++ List.concat (map line l) /\
    (forall b, In b l -> marshal jnum (al_best al b) <> None) /\ (oks = [] -> d_out d' = d_out d) /\ (oks <> [] -> d_out d' = marshal jnum (al_best al a')).
Proof.
  induction 1 as [d a|ok oks d a b d1 o S W R IH|ok oks d a b d1 S W|ok oks d a S]; intros d' a' E So Bu; try discriminate.
  - injection E as <- <-. exists []. repeat split; try constructor; try (symmetry; apply app_nil_r); try reflexivity; try (intros ? []); congruence.
  - unfold write_out in W. destruct (marshal jnum (al_best al b)) as [js|] eqn:M; [|discriminate]. destruct ok; [|discriminate].
    assert (Ed : d1 = Disk (w_flush (w_write (stats_line show (al_gen al b) (al_fit al b)) (d_stats d))) (Some js)) by congruence. clear W. subst d1.
    destruct (write_sound (line b) _ So) as [S1 T1]. destruct (flush_sound _ S1) as (S2 & F2 & B2).
    destruct (IH d' a' E S2 B2) as (l & V & L & F & O & M2 & N1 & N2). exists (b :: l). split; [constructor; assumption|]. split; [cbn; congruence|]. split; [rewrite final_cons; exact F|].
    split; [rewrite O; cbn [d_stats]; rewrite F2, T1; unfold sent; rewrite Bu, app_nil_r; cbn [map List.concat]; rewrite <- app_assoc; reflexivity|].
    split; [intros c [<-|I]; [congruence|apply M2, I]|]. split; [discriminate|]. intros _. destruct oks as [|ok oks]; [|apply N2; discriminate].
    assert (l = []) by (destruct l; [reflexivity|discriminate]). subst l. rewrite (N1 eq_refl). cbn [d_out]. cbn in F. subst a'. symmetry. exact M.
Qed.
(** Nothing else than a Step that panics or a file that cannot be written ends it. *)
Lemma output_loop_ends reps oks d a o (I : al_state al -> Prop) : output_loop show jnum al reps oks d a o -> I a ->
  (forall a, I a -> ~ step_n al (Z.to_nat reps) a None) -> (forall a b, I a -> step_n al (Z.to_nat reps) a (Some b) -> I b) -> (forall a, I a -> marshal jnum (al_best al a) <> None) ->
  o <> Panicked /\ (forall d', o = Fatal d' -> In false oks).
Proof.
  intros L. induction L as [d a|ok oks d a b d1 o S W R IH|ok oks d a b d1 S W|ok oks d a S]; intros Ia N K M.
  - split; [discriminate|]. intros; discriminate.
  - destruct (IH (K _ _ Ia S) N K M) as [A B]. split; [exact A|]. intros d' E. right. exact (B d' E).
  - split; [discriminate|]. intros d' _. unfold write_out in W. destruct (marshal jnum (al_best al b)) eqn:E; [|destruct (M b (K _ _ Ia S) E)]. destruct ok; [discriminate|left; reflexivity].
  - destruct (N a Ia S).
Qed.
(** It goes on for ever. *)
Lemma output_loop_on reps (I : al_state al -> Prop) : (forall a, I a -> exists b, step_n al (Z.to_nat reps) a (Some b) /\ I b) -> (forall a, I a -> marshal jnum (al_best al a) <> None) ->
  forall k d a, I a -> exists d' a', output_loop show jnum al reps (repeat true k) d a (Running d' a').
Proof.
  intros K M. induction k as [|k IH]; intros d a Ia; [exists d, a; constructor|]. destruct (K a Ia) as (b & S & Ib).
  destruct (marshal jnum (al_best al b)) as [js|] eqn:E; [|destruct (M b Ib E)].
  destruct (IH (Disk (w_flush (w_write (stats_line show (al_gen al b) (al_fit al b)) (d_stats d))) (Some js)) b Ib) as (d' & a' & R).
  exists d', a'. cbn [repeat]. econstructor; [exact S| |exact R]. unfold write_out. rewrite E. reflexivity.
Qed.
Lemma run_loop_on reps (I : al_state al -> Prop) : (forall a, I a -> exists b, step_n al (Z.to_nat reps) a (Some b) /\ I b) ->
  forall k out a, I a -> exists out' a', run_loop show al reps k out a (Some (out', a')).
Proof.
  intros K. induction k as [|k IH]; intros out a Ia; [exists out, a; constructor|]. destruct (K a Ia) as (b & S & Ib).
  destruct (IH (out ++ line b) b Ib) as (o' & a' & R). exists o', a'. econstructor; [exact S|exact R].
Qed.
Lemma run_loop_ends reps k out a o (I : al_state al -> Prop) : run_loop show al reps k out a o -> I a ->
  (forall a, I a -> ~ step_n al (Z.to_nat reps) a None) -> (forall a b, I a -> step_n al (Z.to_nat reps) a (Some b) -> I b) -> o <> None.
Proof.
  intros L. induction L as [out a|k out a b o S R IH|k out a S]; intros Ia N K; [discriminate|exact (IH (K _ _ Ia S) N K)|destruct (N a Ia S)].
Qed.
(** [n] Steps. *)
Lemma step_n_inv (I : al_state al -> Prop) : (forall a o, I a -> al_step al a o -> exists b, o = Some b /\ I b) -> forall n a o, step_n al n a o -> I a -> exists b, o = Some b /\ I b.
Proof.
  intros K n a o S. induction S as [a|n a b o S R IH|n a S]; intros Ia; [exists a; auto| |].
  - destruct (K a _ Ia S) as (b' & E & Ib). injection E as <-. exact (IH Ib).
  - destruct (K a _ Ia S) as (b' & E & _). discriminate.
Qed.
Lemma step_n_on (I : al_state al -> Prop) : (forall a, I a -> exists b, al_step al a (Some b) /\ I b) -> forall n a, I a -> exists b, step_n al n a (Some b) /\ I b.
Proof.
  intros K n. induction n as [|n IH]; intros a Ia; [exists a; split; [constructor|exact Ia]|]. destruct (K a Ia) as (b & S & Ib). destruct (IH b Ib) as (c & R & Ic). exists c. split; [econstructor; eassumption|exact Ic].
Qed.
Lemma step_n_app n m a b o : step_n al n a (Some b) -> step_n al m b o -> step_n al (n + m) a o.
Proof.
  intros S. remember (Some b) as q eqn:Q. revert b Q. induction S as [a|n a a1 q S R IH|n a S]; intros b Q T; [injection Q as ->; exact T| |discriminate].
  cbn [Nat.add]. econstructor; [exact S|]. exact (IH b Q T).
Qed.
End Loops.

(* ---------------------------------------------------------------- *)
(** * Reading the stats file *)
Lemma upto_app c n s : ~ In c n -> upto c (n ++ c :: s) = Some (n, s).
Proof.
  induction n as [|d n IH]; cbn [app upto]; intros H; [rewrite Ascii.eqb_refl; reflexivity|]. destruct (Ascii.eqb_spec d c) as [->|N]; [destruct H; left; reflexivity|]. rewrite IH; [reflexivity|]. intros I. apply H. right. exact I.
Qed.
Lemma digits_comma d : ~ In ","%char (list_ascii_of_string (NilEmpty.string_of_uint d)).
Proof. induction d; cbn; intros I; repeat (destruct I as [I|I]; [discriminate I|]); auto. Qed.
Lemma uint_comma d : ~ In ","%char (list_ascii_of_string (NilZero.string_of_uint d)).
Proof.
  unfold NilZero.string_of_uint. destruct d; try apply digits_comma. cbn. intros [I|[]]. discriminate I.
Qed.
Lemma int_comma z : ~ In ","%char (show_int z).
Proof.
  unfold show_int, text. destruct (Z.to_int z) as [d|d]; cbn [NilZero.string_of_int list_ascii_of_string]; [apply uint_comma|]. intros [I|I]; [discriminate I|exact (uint_comma d I)].
Qed.
Lemma int_back z : option_map Z.of_int (NilZero.int_of_string (string_of_list_ascii (show_int z))) = Some z.
Proof.
  unfold show_int, text. rewrite string_of_list_ascii_of_string, NilZero.isi; cbn [option_map]; [rewrite DecimalZ.of_to; reflexivity| |]; destruct z as [|p|p]; cbn; try discriminate; intros H; injection H as H; exact (DecimalPos.Unsigned.to_uint_nonnil p H).
Qed.
Lemma read_entry_line show z f s : on_one_line show -> read_entry (stats_line show z f ++ s) = Some ((z, show f), s).
Proof.
  intros O. unfold read_entry, stats_line. rewrite <- !app_assoc. change (text ", ") with ([","%char] ++ text " "). rewrite <- app_assoc. cbn [app]. rewrite upto_app by apply int_comma.
  pose proof (int_back z) as B. destruct (NilZero.int_of_string (string_of_list_ascii (show_int z))) as [i|]; [|discriminate]. cbn [option_map] in B. injection B as ->.
  change (text " ") with [" "%char]. cbn [app expect]. rewrite Ascii.eqb_refl. unfold newline. cbn [app]. rewrite upto_app by apply O. reflexivity.
Qed.
Lemma read_lines_all show l : on_one_line show -> forall fuel, (List.length (List.concat (map (fun e => stats_line show (fst e) (snd e)) l)) <= fuel)%nat ->
  read_lines fuel (List.concat (map (fun e => stats_line show (fst e) (snd e)) l)) = Some (map (fun e => (fst e, show (snd e))) l).
Proof.
  intros O. induction l as [|[z f] l IH]; intros fuel H; cbn [map List.concat fst snd] in *; [destruct fuel; reflexivity|].
  assert (L : exists c r, stats_line show z f = c :: r). { unfold stats_line. destruct (show_int z) as [|c r]; [exists ","%char|exists c]; cbn [app text list_ascii_of_string]; eexists; reflexivity. }
  destruct L as (c & r & L). destruct fuel as [|n]; [rewrite L in H; cbn in H; lia|].
  pose proof (read_entry_line show z f (List.concat (map (fun e => stats_line show (fst e) (snd e)) l)) O) as R. rewrite app_length, L in H. cbn [List.length] in H.
  rewrite L in *. cbn [app read_lines] in *. rewrite R, IH by lia. reflexivity.
Qed.
