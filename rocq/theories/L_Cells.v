(** Proofs about Voronoi and IVoronoi on slices (M_Cells). *)
From Coq Require Import ZArith List Bool Arith Lia Permutation.
From Verif Require Import GoNum M_Norm M_Slice M_Geom M_Image M_Raster M_Delaunay M_Algo M_Fitness M_Voronoi S_Voronoi M_Polygons M_Heap M_Cells S_Cells L_Heap.
Import ListNotations.
Local Open Scope nat_scope.

Section Slices.
Context {A : Type} (zero : A) (grow : list (list A) -> nat).
Implicit Types (h : list (list A)) (s : header).

Definition valid_hd h s : Prop := h_arr s < length h /\ h_len s <= length (nth (h_arr s) h []).
(** From h to h' only the arrays X are written to; all arrays stay and keep their size. *)
Definition touches (X : list nat) h h' : Prop :=
  length h <= length h' /\ forall b, b < length h -> length (nth b h' []) = length (nth b h []) /\ (~ In b X -> nth b h' [] = nth b h []).
(** The array of a slice stays or is a new one. *)
Definition moved h s s' : Prop := h_arr s' = h_arr s \/ length h <= h_arr s'.

Lemma touches_refl X h : touches X h h. Proof. split; [lia|auto]. Qed.
Lemma touches_trans X Y h h1 h2 : touches X h h1 -> touches Y h1 h2 -> (forall y, In y Y -> y < length h -> In y X) -> touches X h h2.
Proof.
  intros [L1 T1] [L2 T2] I. split; [lia|]. intros b B. destruct (T1 b B) as [l1 t1], (T2 b ltac:(lia)) as [l2 t2]. split; [congruence|].
  intros N. rewrite t2, t1; auto.
Qed.
Lemma touches_weaken X Y h h' : touches X h h' -> incl X Y -> touches Y h h'.
Proof. intros [L T] I. split; [exact L|]. intros b B. destruct (T b B) as [l t]. split; [exact l|]. intros N. apply t. intros J. apply N, I, J. Qed.
Lemma touches_valid X h h' s : touches X h h' -> valid_hd h s -> valid_hd h' s.
Proof. intros [L T] [B V]. destruct (T _ B) as [l _]. split; [lia|]. rewrite l. exact V. Qed.
Lemma touches_elems X h h' s : touches X h h' -> h_arr s < length h -> ~ In (h_arr s) X -> elems h' s = elems h s.
Proof. intros [L T] B N. unfold elems. rewrite (proj2 (T _ B) N). reflexivity. Qed.

Lemma set_nth_length {B} i (b : B) l : length (set_nth i b l) = length l.
Proof. revert i. induction l as [|x l IH]; intros [|i]; cbn; auto. Qed.
Lemma nth_set_nth {B} i (b d : B) l j : nth j (set_nth i b l) d = if (i =? j) && (i <? length l) then b else nth j l d.
Proof.
  revert i j. induction l as [|x l IH]; intros [|i] [|j]; cbn; auto.
  - destruct (i =? j); reflexivity.
  - rewrite IH. cbn. reflexivity.
Qed.
Lemma firstn_set_nth {B} (v : B) l n : n < length l -> firstn (S n) (set_nth n v l) = firstn n l ++ [v].
Proof. revert n. induction l as [|x l IH]; intros [|n] L; cbn in *; [lia|lia|reflexivity|]. f_equal. apply IH. lia. Qed.

Lemma push_ok h s v h' s' : valid_hd h s -> push zero grow (h, s) v = (h', s') ->
  elems h' s' = elems h s ++ [v] /\ valid_hd h' s' /\ touches [h_arr s] h h' /\ moved h s s'.
Proof.
  intros [B V] E. unfold push in E. destruct (Nat.ltb_spec (h_len s) (length (nth (h_arr s) h []))) as [L|L]; injection E as <- <-.
  - unfold elems, valid_hd, touches, moved. cbn [h_arr h_len]. rewrite set_nth_length, nth_set_nth, Nat.eqb_refl, (proj2 (Nat.ltb_lt _ _) B). cbn [andb]. rewrite set_nth_length.
    split; [apply firstn_set_nth, L|]. split; [split; lia|]. split; [|left; reflexivity]. split; [lia|]. intros b Bb. rewrite nth_set_nth.
    destruct (Nat.eqb_spec (h_arr s) b) as [e|e]; cbn [andb].
    + rewrite (proj2 (Nat.ltb_lt _ _) B), set_nth_length. subst b. split; [reflexivity|]. intros N. exfalso. apply N. left. reflexivity.
    + split; auto.
  - assert (EL : h_len s = length (nth (h_arr s) h [])) by lia.
    unfold elems, valid_hd, touches, moved. cbn [h_arr h_len]. rewrite app_length, app_nth2, Nat.sub_diag by lia. cbn [nth length].
    split; [|split; [|split; [split; [lia|]|right; lia]]].
    + rewrite EL, firstn_all, firstn_app. rewrite (firstn_all2 (n := S _)) by lia. replace (S (length (nth (h_arr s) h [])) - length (nth (h_arr s) h [])) with 1 by lia. reflexivity.
    + split; [lia|]. rewrite !app_length, firstn_length. cbn [length]. lia.
    + intros b Bb. rewrite app_nth1 by lia. auto.
Qed.
Lemma pushes_ok vs : forall h s h' s', valid_hd h s -> fold_left (push zero grow) vs (h, s) = (h', s') ->
  elems h' s' = elems h s ++ vs /\ valid_hd h' s' /\ touches [h_arr s] h h' /\ moved h s s'.
Proof.
  induction vs as [|v vs IH]; intros h s h' s' V E; cbn [fold_left] in E.
  - injection E as <- <-. rewrite app_nil_r. split; [reflexivity|]. split; [exact V|]. split; [apply touches_refl|left; reflexivity].
  - destruct (push zero grow (h, s) v) as [h1 s1] eqn:P. destruct (push_ok _ _ _ _ _ V P) as (E1 & V1 & T1 & M1). destruct (IH _ _ _ _ V1 E) as (E2 & V2 & T2 & M2).
    split; [rewrite E2, E1, <- app_assoc; reflexivity|]. split; [exact V2|]. split.
    + apply (touches_trans _ _ _ _ _ T1 T2). intros y [<-|[]] Ly. destruct M1 as [e|G]; [left; symmetry; exact e|lia].
    + destruct T1 as [LT _]. destruct M1 as [e|G], M2 as [e2|G2]; unfold moved; try (right; lia); left; congruence.
Qed.
Lemma refill_ok h s vs h' s' : valid_hd h s -> refill zero grow h s vs = (h', s') -> elems h' s' = vs /\ valid_hd h' s' /\ touches [h_arr s] h h' /\ moved h s s'.
Proof.
  intros [B V] E. unfold refill in E. apply pushes_ok in E; [|split; cbn [h_arr h_len]; lia]. exact E.
Qed.
Lemma overwrite_ok h s l : valid_hd h s -> length l = h_len s -> elems (overwrite h s l) s = l /\ valid_hd (overwrite h s l) s /\ touches [h_arr s] h (overwrite h s l).
Proof.
  intros [B V] L. assert (LS : length (splice 0 l (nth (h_arr s) h [])) = length (nth (h_arr s) h [])) by (unfold splice; cbn [firstn app]; rewrite app_length, skipn_length; lia).
  unfold elems, valid_hd, touches, overwrite. rewrite set_nth_length, nth_set_nth, Nat.eqb_refl, (proj2 (Nat.ltb_lt _ _) B). cbn [andb]. split; [|split; [split; lia|split; [lia|]]].
  - unfold splice. cbn [firstn app]. rewrite <- L, firstn_app, firstn_all, Nat.sub_diag. cbn [firstn]. apply app_nil_r.
  - intros b Bb. rewrite nth_set_nth. destruct (Nat.eqb_spec (h_arr s) b) as [e|e]; cbn [andb].
    + rewrite (proj2 (Nat.ltb_lt _ _) B). subst b. split; [exact LS|]. intros N. exfalso. apply N. left. reflexivity.
    + auto.
Qed.
Lemma elems_length h s : valid_hd h s -> length (elems h s) = h_len s.
Proof. intros [_ V]. unfold elems. rewrite firstn_length. lia. Qed.
Lemma add_array h a : touches [] h (h ++ [a]).
Proof. split; [rewrite app_length; lia|]. intros b B. rewrite app_nth1 by exact B. auto. Qed.
Lemma fresh_ok h vs h' s' : fresh_copy zero grow h vs = (h', s') -> elems h' s' = vs /\ valid_hd h' s' /\ touches [] h h' /\ h_arr s' = length h.
Proof.
  intros E. unfold fresh_copy in E. injection E as <- <-. unfold elems, valid_hd. cbn [h_arr h_len]. rewrite app_length, app_nth2, Nat.sub_diag by lia. cbn [nth length].
  split; [rewrite firstn_app, firstn_all, Nat.sub_diag; cbn [firstn]; apply app_nil_r|]. split; [rewrite app_length; lia|]. split; [apply add_array|reflexivity].
Qed.
Lemma make_ok h n h' s' : make_empty zero h n = (h', s') -> elems h' s' = [] /\ valid_hd h' s' /\ touches [] h h' /\ h_arr s' = length h.
Proof.
  intros E. unfold make_empty in E. injection E as <- <-. unfold elems, valid_hd. cbn [h_arr h_len firstn]. rewrite app_length. cbn [length].
  split; [reflexivity|]. split; [lia|]. split; [apply add_array|reflexivity].
Qed.
End Slices.

(* ---------------------------------------------------------------- *)
Definition scratch_ok (m : heapf) (points new : header) : Prop := valid_hd m points /\ valid_hd m new /\ h_arr points <> h_arr new.

Lemma moved_ne {A} (m m' : list (list A)) s s' t t' : touches [] m m' \/ length m <= length m' -> h_arr s < length m -> h_arr t < length m -> h_arr s <> h_arr t ->
  moved m s s' -> h_arr s' < length m' -> moved m' t t' -> h_arr s' <> h_arr t'.
Proof. intros L B1 B2 N M1 B3 M2. assert (L' : length m <= length m') by (destruct L as [[L _]|L]; lia). destruct M1, M2; lia. Qed.

Lemma h_cell_ok grow srt d w h m points new p : sorter_ok srt -> scratch_ok m points new ->
  match h_cell grow srt d w h (m, points, new) p with
  | None => cell_of srt d w h p = None
  | Some (m', points', new', out) => cell_of srt d w h p = Some (elems m' out) /\ scratch_ok m' points' new' /\ touches [h_arr points; h_arr new] m m' /\
      moved m points points' /\ moved m new new' /\ (out = points' \/ out = new')
  end.
Proof.
  intros SO (VP & VN & NE). unfold h_cell, cell_of. destruct (centres d p) as [cs|]; [|reflexivity]. unfold cell_from.
  destruct (fold_left (collect w h) cs ([], false)) as [vs clip]. destruct (refill no_point grow m points vs) as [m1 points1] eqn:E1.
  destruct (refill_ok _ _ _ _ _ _ _ VP E1) as (Q1 & V1 & T1 & M1). rewrite Q1.
  destruct (srt _ vs) as [sorted|] eqn:S1; [|reflexivity]. apply (so_perm _ SO) in S1 as L1. apply Permutation_length in L1.
  pose proof (elems_length m1 points1 V1) as EL1. rewrite Q1 in EL1.
  destruct (overwrite_ok m1 points1 sorted V1 ltac:(lia)) as (Q2 & V2 & T2). set (m2 := overwrite m1 points1 sorted) in *.
  assert (T12 : touches [h_arr points] m m2).
  { apply (touches_trans _ _ _ _ _ T1 T2). intros y [<-|[]] Ly. destruct M1 as [e|G]; [left; symmetry; exact e|lia]. }
  assert (N12 : h_arr points1 <> h_arr new) by (destruct M1 as [e|G]; [congruence|destruct VN; lia]).
  pose proof (touches_valid _ _ _ _ T12 VN) as VN2.
  assert (IX : incl [h_arr points] [h_arr points; h_arr new]) by (intros x [<-|[]]; left; reflexivity).
  destruct clip.
  - destruct (refill no_point grow m2 new (clip_polygon w h (elems m2 points1))) as [m3 new1] eqn:E3.
    destruct (refill_ok _ _ _ _ _ _ _ VN2 E3) as (Q3 & V3 & T3 & M3). rewrite Q3, Q2.
    destruct (srt _ (clip_polygon w h sorted)) as [sorted2|] eqn:S3; [|reflexivity]. apply (so_perm _ SO) in S3 as L3. apply Permutation_length in L3.
    pose proof (elems_length m3 new1 V3) as EL3. rewrite Q3, Q2 in EL3.
    destruct (overwrite_ok m3 new1 sorted2 V3 ltac:(lia)) as (Q4 & V4 & T4). set (m4 := overwrite m3 new1 sorted2) in *.
    assert (T34 : touches [h_arr new] m2 m4).
    { apply (touches_trans _ _ _ _ _ T3 T4). intros y [<-|[]] Ly. destruct M3 as [e|G]; [left; symmetry; exact e|lia]. }
    split; [rewrite Q4; reflexivity|]. destruct T12 as [L12 T12']. split; [|split; [|split; [exact M1|split; [|right; reflexivity]]]].
    + split; [exact (touches_valid _ _ _ _ T34 V2)|]. split; [exact V4|]. destruct M3 as [e|G]; [congruence|]. destruct V2. lia.
    + apply (touches_trans _ _ _ _ _ (touches_weaken _ [h_arr points; h_arr new] _ _ (conj L12 T12') IX) T34).
      intros y [<-|[]] _. right. left. reflexivity.
    + destruct M3 as [e|G]; [left; exact e|right; lia].
  - split; [rewrite Q2; reflexivity|]. split; [split; [exact V2|split; [exact VN2|exact N12]]|]. split; [exact (touches_weaken _ _ _ _ T12 IX)|].
    split; [exact M1|]. split; [left; reflexivity|left; reflexivity].
Qed.

Lemma h_voronoi_loop_ok grow srt d w h : sorter_ok srt -> forall ps m points new, scratch_ok m points new ->
  match h_voronoi_loop grow srt d w h (m, points, new) ps with
  | None => mapM (cell_of srt d w h) ps = None
  | Some (m', log) => option_map (filter nonempty) (mapM (cell_of srt d w h) ps) = Some (map snd log) /\ touches [h_arr points; h_arr new] m m'
  end.
Proof.
  intros SO. induction ps as [|p ps IH]; intros m points new OK; cbn [h_voronoi_loop mapM fst].
  - split; [reflexivity|apply touches_refl].
  - pose proof (h_cell_ok grow srt d w h m points new p SO OK) as C. destruct (h_cell grow srt d w h (m, points, new) p) as [[[[m1 points1] new1] out]|]; [|rewrite C; reflexivity].
    destruct C as (EC & OK1 & T1 & M1 & M2 & _). rewrite EC. specialize (IH m1 points1 new1 OK1). destruct (h_voronoi_loop grow srt d w h (m1, points1, new1) ps) as [[m2 log]|]; [|rewrite IH; reflexivity].
    destruct IH as [EI T2]. destruct (mapM (cell_of srt d w h) ps) as [l|]; [|discriminate]. cbn [option_map] in *. injection EI as EI. split.
    + cbn [filter]. destruct (nonempty (elems m1 out)); cbn [map snd]; rewrite EI; reflexivity.
    + apply (touches_trans _ _ _ _ _ T1 T2). intros y [<-|[<-|[]]] L; [destruct M1 as [e|G]; [left; auto|lia]|destruct M2 as [e|G]; [right; left; auto|lia]].
Qed.

(* ---------------------------------------------------------------- *)
(** * Maps of headers *)
Section Maps.
Context {E E' : Type} (g : E -> E').
Lemma znth_map (l : list E) i : znth (map g l) i = option_map g (znth l i).
Proof. unfold znth. destruct (i <? 0)%Z; [reflexivity|]. apply nth_error_map. Qed.
Lemma set_nth_map i x (l : list E) : set_nth i (g x) (map g l) = map g (set_nth i x l).
Proof. revert i. induction l as [|a l IH]; intros [|i]; cbn; auto. rewrite IH. reflexivity. Qed.
Lemma zset_map (l : list E) i x : zset (map g l) i (g x) = option_map (map g) (zset l i x).
Proof. unfold zset. rewrite znth_map. destruct (znth l i); [|reflexivity]. cbn [option_map]. rewrite set_nth_map. reflexivity. Qed.
Lemma find_index_map (f : E' -> bool) (l : list E) : find_index f (map g l) = find_index (fun x => f (g x)) l.
Proof. induction l as [|a l IH]; cbn [find_index map]; [reflexivity|]. rewrite IH. reflexivity. Qed.
Lemma last_map' (l : list E) (d : E) : last (map g l) (g d) = g (last l d).
Proof. induction l as [|a [|b l] IH]; cbn [last map] in *; auto. Qed.
End Maps.
Lemma swap_delete_map {E E'} (g : E -> E') k (l : list E) : swap_delete k (map g l) = map g (swap_delete k l).
Proof.
  unfold swap_delete. rewrite map_length, nth_error_map. destruct (nth_error l (length l - 1)) as [x|]; cbn [option_map]; [|reflexivity].
  rewrite set_nth_map, firstn_map. reflexivity.
Qed.
Lemma bucket_map {E E'} (g : E -> E') (t : list (list E)) p : bucket (map (map g) t) p = option_map (fun ib => (fst ib, map g (snd ib))) (bucket t p).
Proof.
  unfold bucket, bucket_index. rewrite map_length. destruct (length t =? 0); [reflexivity|]. rewrite znth_map. destruct (znth t _); reflexivity.
Qed.

Definition show_map (m : heapf) (gm : hmap) : gmap := map (map (fun e => (fst e, elems m (snd e)))) gm.
Lemma show_add m gm p s : add_polygon (show_map m gm) p (elems m s) = option_map (show_map m) (hm_add gm p s).
Proof.
  unfold add_polygon, hm_add, show_map. rewrite bucket_map. destruct (bucket gm p) as [[i b]|]; [|reflexivity]. cbn [option_map fst snd].
  rewrite <- (zset_map (map (fun e : point * header => (fst e, elems m (snd e))))). rewrite map_app. reflexivity.
Qed.
Lemma show_remove m gm p : remove_polygon (show_map m gm) p = option_map (show_map m) (hm_remove gm p).
Proof.
  unfold remove_polygon, hm_remove, show_map. rewrite bucket_map. destruct (bucket gm p) as [[i b]|]; [|reflexivity]. cbn [option_map fst snd].
  rewrite find_index_map. cbn [fst]. destruct (find_index _ b) as [k|]; [|reflexivity]. rewrite swap_delete_map, zset_map. reflexivity.
Qed.
Lemma show_removes m ps : forall gm, foldM remove_polygon ps (show_map m gm) = option_map (show_map m) (foldM hm_remove ps gm).
Proof.
  induction ps as [|p ps IH]; intros gm; cbn [foldM]; [reflexivity|]. rewrite show_remove. destruct (hm_remove gm p) as [gm'|]; [apply IH|reflexivity].
Qed.
Lemma show_map_ext m m' gm : (forall s, In s (hm_iter gm) -> elems m' s = elems m s) -> show_map m' gm = show_map m gm.
Proof.
  intros H. unfold show_map. apply map_ext_in. intros b Ib. apply map_ext_in. intros e Ie. f_equal. apply H. unfold hm_iter. apply in_map. apply in_concat. eauto.
Qed.
Lemma in_set_nth {B} i (b x : B) l : In x (set_nth i b l) -> x = b \/ In x l.
Proof. revert i. induction l as [|a l IH]; intros [|i]; cbn; auto; intros [<-|I]; auto. destruct (IH _ I); auto. Qed.
Lemma zset_in {B} (l l' : list (list B)) i b x : zset l i b = Some l' -> In x (concat l') -> In x b \/ In x (concat l).
Proof.
  unfold zset. destruct (znth l i); [|discriminate]. intros [= <-] I. apply in_concat in I as (c & Ic & Ix). apply in_set_nth in Ic as [->|Ic]; [auto|]. right. apply in_concat. eauto.
Qed.
Lemma bucket_in {B} (t : list (list B)) p i b x : bucket t p = Some (i, b) -> In x b -> In x (concat t).
Proof.
  unfold bucket. destruct (bucket_index t p) as [j|]; [|discriminate]. destruct (znth t j) as [b'|] eqn:Z; [|discriminate]. intros [= <- <-] I.
  apply in_concat. exists b'. split; [|exact I]. unfold znth in Z. destruct (j <? 0)%Z; [discriminate|]. eapply nth_error_In, Z.
Qed.
Lemma swap_delete_in {B} k (l : list B) x : In x (swap_delete k l) -> In x l.
Proof.
  unfold swap_delete. destruct (nth_error l (length l - 1)) as [y|] eqn:N; [|auto]. intros I.
  assert (J : In x (set_nth k y l)) by (rewrite <- (firstn_skipn (length l - 1)); apply in_or_app; auto).
  apply in_set_nth in J as [->|J]; [eapply nth_error_In, N|exact J].
Qed.
Lemma hm_add_iter gm p s gm' k : hm_add gm p s = Some gm' -> In k (hm_iter gm') -> k = s \/ In k (hm_iter gm).
Proof.
  unfold hm_add, hm_iter. destruct (bucket gm p) as [[i b]|] eqn:B; [|discriminate]. intros E I. apply in_map_iff in I as (e & <- & Ie).
  apply (zset_in _ _ _ _ _ E) in Ie as [Ie|Ie].
  - apply in_app_or in Ie as [Ie|[<-|[]]]; [|left; reflexivity]. right. apply in_map, (bucket_in _ _ _ _ _ B Ie).
  - right. apply in_map, Ie.
Qed.
Lemma hm_remove_iter gm p gm' k : hm_remove gm p = Some gm' -> In k (hm_iter gm') -> In k (hm_iter gm).
Proof.
  unfold hm_remove, hm_iter. destruct (bucket gm p) as [[i b]|] eqn:B; [|discriminate]. destruct (find_index _ b) as [j|]; [|discriminate]. intros E I. apply in_map_iff in I as (e & <- & Ie).
  apply in_map. apply (zset_in _ _ _ _ _ E) in Ie as [Ie|Ie]; [|exact Ie]. apply swap_delete_in in Ie. exact (bucket_in _ _ _ _ _ B Ie).
Qed.
Lemma hm_removes_iter ps : forall gm gm' k, foldM hm_remove ps gm = Some gm' -> In k (hm_iter gm') -> In k (hm_iter gm).
Proof.
  induction ps as [|p ps IH]; intros gm gm' k E I; cbn [foldM] in E; [injection E as <-; exact I|]. destruct (hm_remove gm p) as [g1|] eqn:R; [|discriminate].
  apply (hm_remove_iter _ _ _ _ R), (IH _ _ _ E I).
Qed.

(* ---------------------------------------------------------------- *)
(** * Diagrams: [F] are the polygons handed out or stored so far *)
Definition apart (F : list header) (m : heapf) (points new : header) : Prop :=
  scratch_ok m points new /\ forall k, In k F -> h_arr k <> h_arr points /\ h_arr k <> h_arr new.
Definition frozen (F : list header) (m : heapf) : Prop := forall k, In k F -> valid_hd m k.
(** What one call does. *)
Record step_ok (F F' : list header) (m m' : heapf) (points points' new new' : header) : Prop := {
  st_incl : incl F F';
  st_new : forall k, In k F' -> In k F \/ length m <= h_arr k;
  st_frozen : frozen F' m';
  st_apart : apart F' m' points' new';
  st_touch : touches [h_arr points; h_arr new] m m';
  st_p : moved m points points';
  st_n : moved m new new' }.

Lemma step_refl F m points new : frozen F m -> apart F m points new -> step_ok F F m m points points new new.
Proof. intros Fr A. constructor; auto; [intros x; auto|apply touches_refl|left; reflexivity|left; reflexivity]. Qed.
Lemma step_trans F F1 F2 m m1 m2 p p1 p2 n n1 n2 : step_ok F F1 m m1 p p1 n n1 -> step_ok F1 F2 m1 m2 p1 p2 n1 n2 -> step_ok F F2 m m2 p p2 n n2.
Proof.
  intros S1 S2. destruct S1 as [I1 N1 Fr1 A1 T1 P1 Q1], S2 as [I2 N2 Fr2 A2 T2 P2 Q2]. pose proof (proj1 T1) as L1. constructor.
  - intros x Ix. apply I2, I1, Ix.
  - intros k Ik. destruct (N2 k Ik) as [J|J]; [apply N1, J|right; lia].
  - exact Fr2.
  - exact A2.
  - apply (touches_trans _ _ _ _ _ T1 T2). intros y [<-|[<-|[]]] L; [destruct P1 as [e|G]; [left; auto|lia]|destruct Q1 as [e|G]; [right; left; auto|lia]].
  - destruct P1, P2; unfold moved; try (right; lia); left; congruence.
  - destruct Q1, Q2; unfold moved; try (right; lia); left; congruence.
Qed.
Lemma step_keeps F F' m m' p p' n n' k : frozen F m -> apart F m p n -> step_ok F F' m m' p p' n n' -> In k F -> elems m' k = elems m k.
Proof.
  intros Fr [_ A] S Ik. apply (touches_elems _ _ _ _ (st_touch _ _ _ _ _ _ _ _ S)); [apply (Fr k Ik)|]. destruct (A k Ik) as [a b]. intros [e|[e|[]]]; congruence.
Qed.
Lemma step_show F F' m m' p p' n n' gm : frozen F m -> apart F m p n -> step_ok F F' m m' p p' n n' -> incl (hm_iter gm) F -> show_map m' gm = show_map m gm.
Proof. intros Fr A S I. apply show_map_ext. intros s Is. apply (step_keeps _ _ _ _ _ _ _ _ s Fr A S). apply I, Is. Qed.

Section Steps.
Context (grow : list (list fpoint) -> nat) (srt : sorter) (SO : sorter_ok srt).

Lemma h_process_ok d w h F m points new gm p : frozen F m -> apart F m points new -> incl (hm_iter gm) F ->
  match h_process grow srt d w h (m, points, new, gm) p with
  | None => process_point srt w h d (show_map m gm) p = None
  | Some (m', points', new', gm') => exists F', process_point srt w h d (show_map m gm) p = Some (show_map m' gm') /\ step_ok F F' m m' points points' new new' /\ incl (hm_iter gm') F'
  end.
Proof.
  intros Fr [SC A] I. unfold h_process, process_point. pose proof (h_cell_ok grow srt d w h m points new p SO SC) as C.
  destruct (h_cell grow srt d w h (m, points, new) p) as [[[[m1 points1] new1] out]|]; [|rewrite C; reflexivity].
  destruct C as (EC & SC1 & T1 & M1 & M2 & _). rewrite EC. destruct (fresh_copy no_point grow m1 (elems m1 out)) as [m2 k] eqn:EF. destruct (fresh_ok _ _ _ _ _ _ EF) as (Ek & Vk & Tk & Ak).
  destruct SC1 as (VP1 & VN1 & NE1). destruct SC as (VP & VN & NE). pose proof (proj1 T1) as L1.
  assert (S : step_ok F (F ++ [k]) m m2 points points1 new new1).
  { constructor.
    - intros x Ix. apply in_or_app. auto.
    - intros x Ix. apply in_app_or in Ix as [Ix|[<-|[]]]; [left; exact Ix|right; lia].
    - intros x Ix. apply in_app_or in Ix as [Ix|[<-|[]]]; [|exact Vk]. apply (touches_valid _ _ _ _ Tk), (touches_valid _ _ _ _ T1), Fr, Ix.
    - split; [split; [exact (touches_valid _ _ _ _ Tk VP1)|split; [exact (touches_valid _ _ _ _ Tk VN1)|exact NE1]]|]. intros x Ix. apply in_app_or in Ix as [Ix|[<-|[]]].
      + destruct (A x Ix) as [a b]. pose proof (proj1 (Fr x Ix)) as Lx. split; [destruct M1; [congruence|lia]|destruct M2; [congruence|lia]].
      + destruct VP1, VN1. split; lia.
    - apply (touches_trans _ _ _ _ _ T1 Tk). intros y [].
    - exact M1.
    - exact M2. }
  assert (ES : show_map m2 gm = show_map m gm) by (apply (step_show F (F ++ [k]) m m2 points points1 new new1); [exact Fr|split; [split; [exact VP|split; [exact VN|exact NE]]|exact A]|exact S|exact I]).
  rewrite <- ES, <- Ek, show_add. destruct (hm_add gm p k) as [gm'|] eqn:Ad; cbn [option_map]; [|reflexivity].
  exists (F ++ [k]). split; [reflexivity|]. split; [exact S|]. intros x Ix. apply in_or_app. destruct (hm_add_iter _ _ _ _ _ Ad Ix) as [->|J]; [right; left; reflexivity|left; apply I, J].
Qed.
Lemma h_processes_ok d w h ps : forall F m points new gm, frozen F m -> apart F m points new -> incl (hm_iter gm) F ->
  match foldM (h_process grow srt d w h) ps (m, points, new, gm) with
  | None => foldM (process_point srt w h d) ps (show_map m gm) = None
  | Some (m', points', new', gm') => exists F', foldM (process_point srt w h d) ps (show_map m gm) = Some (show_map m' gm') /\ step_ok F F' m m' points points' new new' /\ incl (hm_iter gm') F'
  end.
Proof.
  induction ps as [|p ps IH]; intros F m points new gm Fr A I; cbn [foldM].
  - exists F. split; [reflexivity|]. split; [apply step_refl; assumption|exact I].
  - pose proof (h_process_ok d w h F m points new gm p Fr A I) as P. destruct (h_process grow srt d w h (m, points, new, gm) p) as [[[[m1 p1] n1] g1]|]; [|rewrite P; reflexivity].
    destruct P as (F1 & E1 & S1 & I1). rewrite E1. specialize (IH F1 m1 p1 n1 g1 (st_frozen _ _ _ _ _ _ _ _ S1) (st_apart _ _ _ _ _ _ _ _ S1) I1).
    destruct (foldM (h_process grow srt d w h) ps (m1, p1, n1, g1)) as [[[[m2 p2] n2] g2]|]; [|exact IH]. destruct IH as (F2 & E2 & S2 & I2). exists F2. split; [exact E2|]. split; [exact (step_trans _ _ _ _ _ _ _ _ _ _ _ _ S1 S2)|exact I2].
Qed.

Definition iv_good (F : list header) (m : heapf) (v : hiv) : Prop := frozen F m /\ apart F m (hv_points v) (hv_new v) /\ incl (hm_iter (hv_map v)) F.
Definition iv_step_ok (F F' : list header) (m m' : heapf) (v v' : hiv) : Prop :=
  step_ok F F' m m' (hv_points v) (hv_points v') (hv_new v) (hv_new v') /\ incl (hm_iter (hv_map v')) F'.

Lemma h_update_ok F m v d old new : iv_good F m v ->
  match h_update grow srt v d m old new with
  | None => match foldM remove_polygon old (v_map (show_iv m v)) with None => True | Some gm => foldM (process_point srt (hv_w v) (hv_h v) d) new gm = None end
  | Some (m', v') => exists F' gm, foldM remove_polygon old (v_map (show_iv m v)) = Some gm /\
      option_map (IV d (hv_w v) (hv_h v)) (foldM (process_point srt (hv_w v) (hv_h v) d) new gm) = Some (show_iv m' v') /\ iv_step_ok F F' m m' v v'
  end.
Proof.
  intros (Fr & A & I). unfold h_update, show_iv. cbn [v_map]. change (map (map (fun e : point * header => (fst e, elems m (snd e)))) (hv_map v)) with (show_map m (hv_map v)). rewrite show_removes.
  destruct (foldM hm_remove old (hv_map v)) as [gm|] eqn:R; cbn [option_map]; [|exact Logic.I].
  assert (I' : incl (hm_iter gm) F) by (intros x Ix; apply I, (hm_removes_iter _ _ _ _ R Ix)).
  pose proof (h_processes_ok d (hv_w v) (hv_h v) new F m (hv_points v) (hv_new v) gm Fr A I') as P.
  destruct (foldM (h_process grow srt d (hv_w v) (hv_h v)) new (m, hv_points v, hv_new v, gm)) as [[[[m1 p1] n1] g1]|]; cbn [option_map]; [|exact P].
  destruct P as (F1 & E1 & S1 & I1). exists F1, (show_map m gm). split; [reflexivity|]. rewrite E1. split; [reflexivity|]. split; [exact S1|exact I1].
Qed.
Lemma same_iv F m v d : iv_good F m v -> iv_step_ok F F m m v (with_d v d).
Proof. intros (Fr & A & I). split; [apply step_refl; assumption|exact I]. Qed.

Lemma hiv_insert_ok F m v p : iv_good F m v ->
  match hiv_insert grow srt m v p with
  | None => iv_insert srt (show_iv m v) p = None
  | Some (m', v') => exists F', iv_insert srt (show_iv m v) p = Some (show_iv m' v') /\ iv_step_ok F F' m m' v v'
  end.
Proof.
  intros G. unfold hiv_insert, iv_insert. change (v_d (show_iv m v)) with (hv_d v). change (v_w (show_iv m v)) with (hv_w v). change (v_h (show_iv m v)) with (hv_h v).
  destruct (copies_of (d_pmap (hv_d v)) p) as [c|]; [|reflexivity]. destruct (0 <? c)%Z.
  { destruct (insert (hv_d v) p) as [d|]; cbn [option_map]; [|reflexivity]. exists F. split; [reflexivity|apply same_iv, G]. }
  destruct (iter_circles_containing _ _ _) as [l|]; [|reflexivity]. destruct (foldM (update_corners _ _) l []) as [upd|]; [|reflexivity]. destruct (insert (hv_d v) p) as [d|]; [|reflexivity].
  pose proof (h_update_ok F m v d upd (to_update (d_super d) upd p) G) as U. destruct (h_update grow srt v d m upd (to_update (d_super d) upd p)) as [[m' v']|].
  - destruct U as (F' & gm & E1 & E2 & S). exists F'. rewrite E1. split; [exact E2|exact S].
  - destruct (foldM remove_polygon upd (v_map (show_iv m v))) as [gm|]; [rewrite U; reflexivity|reflexivity].
Qed.
Lemma hiv_remove_ok hsrt F m v p : iv_good F m v ->
  match hiv_remove grow srt hsrt m v p with
  | None => iv_remove srt hsrt (show_iv m v) p = None
  | Some (m', v') => exists F', iv_remove srt hsrt (show_iv m v) p = Some (show_iv m' v') /\ iv_step_ok F F' m m' v v'
  end.
Proof.
  intros G. unfold hiv_remove, iv_remove. change (v_d (show_iv m v)) with (hv_d v). change (v_w (show_iv m v)) with (hv_w v). change (v_h (show_iv m v)) with (hv_h v).
  destruct (copies_of (d_pmap (hv_d v)) p) as [c|]; [|reflexivity]. destruct (1 <? c)%Z.
  { destruct (remove (hsrt p) (hv_d v) p) as [d|]; cbn [option_map]; [|reflexivity]. exists F. split; [reflexivity|apply same_iv, G]. }
  destruct (iter_with_vertex _ _ _) as [l|]; [|reflexivity]. destruct (foldM (update_corners _ _) l []) as [upd|]; [|reflexivity]. destruct (remove (hsrt p) (hv_d v) p) as [d|]; [|reflexivity].
  pose proof (h_update_ok F m v d upd (filter (fun q => negb (peq q p)) upd) G) as U. destruct (h_update grow srt v d m upd (filter (fun q => negb (peq q p)) upd)) as [[m' v']|].
  - destruct U as (F' & gm & E1 & E2 & S). exists F'. rewrite E1. split; [exact E2|exact S].
  - destruct (foldM remove_polygon upd (v_map (show_iv m v))) as [gm|]; [rewrite U; reflexivity|reflexivity].
Qed.
End Steps.

(* ---------------------------------------------------------------- *)
(** * Any number of diagrams *)
Definition world_good (F : list header) (s : cworld) : Prop :=
  frozen F (cw_heap s) /\ forall v, In v (cw_objs s) -> apart F (cw_heap s) (hv_points v) (hv_new v) /\ incl (hm_iter (hv_map v)) F.

Lemma world_iv F s v : world_good F s -> In v (cw_objs s) -> iv_good F (cw_heap s) v.
Proof. intros [Fr G] I. destruct (G v I) as [A B]. split; [exact Fr|]. split; assumption. Qed.

Lemma iv_show F F' m m' v v' u : iv_good F m v -> iv_step_ok F F' m m' v v' -> incl (hm_iter (hv_map u)) F -> show_iv m' u = show_iv m u.
Proof.
  intros (Fr & A & I) [S _] Iu. unfold show_iv. f_equal. exact (step_show _ _ _ _ _ _ _ _ (hv_map u) Fr A S Iu).
Qed.
Lemma world_step F F' s v m' v' i : world_good F s -> nth_error (cw_objs s) i = Some v -> iv_step_ok F F' (cw_heap s) m' v v' ->
  let s' := CW m' (set_nth i v' (cw_objs s)) in
  incl F F' /\ world_good F' s' /\ (forall k, In k F -> keeps s s' k) /\ show_world s' = set_nth i (show_iv m' v') (show_world s).
Proof.
  intros G E ST s'. pose proof (nth_error_In _ _ E) as Iv. pose proof (world_iv F s v G Iv) as IG. destruct G as [Fr G]. pose proof ST as [S IM]. split; [apply S|]. split; [|split].
  - split; [apply S|]. intros u Iu. cbn [cw_objs s'] in Iu. apply in_set_nth in Iu as [->|Iu]; [split; [apply S|exact IM]|]. destruct (G u Iu) as [[(VP & VN & NE) A] I]. cbn [cw_heap s'].
    split; [|intros x Ix; apply (st_incl _ _ _ _ _ _ _ _ S), I, Ix]. pose proof (st_touch _ _ _ _ _ _ _ _ S) as T. split; [split; [exact (touches_valid _ _ _ _ T VP)|split; [exact (touches_valid _ _ _ _ T VN)|exact NE]]|].
    intros k Ik. destruct (st_new _ _ _ _ _ _ _ _ S k Ik) as [J|J]; [apply A, J|]. destruct VP, VN. split; lia.
  - intros k Ik. unfold keeps. cbn [cw_heap s']. destruct IG as (_ & A & _). exact (step_keeps _ _ _ _ _ _ _ _ k Fr A S Ik).
  - unfold show_world. cbn [cw_heap cw_objs s']. rewrite <- (set_nth_map (show_iv m')). f_equal. apply map_ext_in. intros u Iu. apply (iv_show F F' _ _ v v' u IG ST). apply (G u Iu).
Qed.

Lemma table_set_map {E E'} (g : E -> E') (t o : list (list E)) : table_set (map (map g) t) (map (map g) o) = option_map (map (map g)) (table_set t o).
Proof.
  unfold table_set. rewrite map_length. induction (seq 0 (length t)) as [|i l IH]; cbn [mapM]; [reflexivity|]. rewrite nth_error_map. destruct (nth_error o i) as [b|]; cbn [option_map]; [|reflexivity].
  rewrite IH. destruct (mapM (fun i => nth_error o i) l); reflexivity.
Qed.
Lemma table_set_in {E} (t o r : list (list E)) x : table_set t o = Some r -> In x (concat r) -> In x (concat o).
Proof.
  unfold table_set. revert r. induction (seq 0 (length t)) as [|i l IH]; intros r H I; cbn [mapM] in H; [injection H as <-; destruct I|].
  destruct (nth_error o i) as [b|] eqn:N; [|discriminate]. destruct (mapM _ l) as [bs|]; [|discriminate]. injection H as <-. cbn [concat] in I. apply in_app_or in I as [I|I]; [|exact (IH bs eq_refl I)].
  apply in_concat. exists b. split; [eapply nth_error_In, N|exact I].
Qed.
Lemma hiv_set_ok m v o : iv_set (show_iv m v) (show_iv m o) = option_map (show_iv m) (hiv_set v o).
Proof.
  unfold iv_set, hiv_set, show_iv. cbn [v_d v_map v_w v_h]. destruct (d_set (hv_d v) (hv_d o)) as [d|]; [|reflexivity]. rewrite table_set_map. destruct (table_set (hv_map v) (hv_map o)); reflexivity.
Qed.

Lemma show_nth s i : nth_error (show_world s) i = option_map (show_iv (cw_heap s)) (nth_error (cw_objs s) i).
Proof. apply nth_error_map. Qed.

Section World.
Context (grow : list (list fpoint) -> nat) (srt : sorter) (SO : sorter_ok srt) (hsrt : point -> list point -> option (list point)).

Lemma c_exec_ok F s o : world_good F s -> two_diagrams o ->
  match c_exec grow srt hsrt s o with
  | None => cv_exec srt hsrt (show_world s) o = None
  | Some s' => cv_exec srt hsrt (show_world s) o = Some (show_world s') /\ exists F', incl F F' /\ world_good F' s' /\ forall k, In k F -> keeps s s' k
  end.
Proof.
  intros G T. destruct o as [w h|i p|i p|i j]; cbn [c_exec cv_exec].
  - unfold hiv_make, new_voronoi. destruct (new_delaunay w h) as [d|]; [|reflexivity].
    destruct (make_empty no_point (cw_heap s) 0) as [m1 points] eqn:E1. destruct (make_empty no_point m1 0) as [m2 new] eqn:E2. destruct (make_ok _ _ _ _ _ E1) as (_ & V1 & T1 & A1). destruct (make_ok _ _ _ _ _ E2) as (_ & V2 & T2 & A2).
    assert (T12 : touches [] (cw_heap s) m2) by (apply (touches_trans _ _ _ _ _ T1 T2); intros y []). pose proof (proj1 T1) as L1. destruct G as [Fr G]. cbn [option_map fst snd new_polygon_map]. cbv [new_polygon_map Z.ltb Z.compare].
    split; [|exists F; split; [intros x; auto|split; [split|]]].
    + cbn [option_map]. unfold show_world. cbn [cw_heap cw_objs]. rewrite map_app. cbn [map]. f_equal. f_equal. apply map_ext_in. intros u Iu. unfold show_iv. f_equal. apply show_map_ext. intros k Ik. symmetry.
      apply (touches_elems _ _ _ _ T12); [|intros []]. apply Fr, (G u Iu), Ik.
    + intros k Ik. exact (touches_valid _ _ _ _ T12 (Fr k Ik)).
    + intros u Iu. cbn [cw_objs cw_heap] in *. apply in_app_or in Iu as [Iu|[<-|[]]].
      * destruct (G u Iu) as [[(VP & VN & NE) A] I]. split; [|exact I]. split; [split; [exact (touches_valid _ _ _ _ T12 VP)|split; [exact (touches_valid _ _ _ _ T12 VN)|exact NE]]|exact A].
      * cbn [hv_points hv_new hv_map]. pose proof (proj1 V1). split; [|intros x Ix; destruct Ix]. split; [split; [exact (touches_valid _ _ _ _ T2 V1)|split; [exact V2|lia]]|]. intros k Ik. pose proof (proj1 (Fr k Ik)). split; lia.
    + intros k Ik. unfold keeps. cbn [cw_heap]. apply (touches_elems _ _ _ _ T12); [apply Fr, Ik|intros []].
  - rewrite show_nth. destruct (nth_error (cw_objs s) i) as [v|] eqn:E; cbn [option_map]; [|reflexivity].
    pose proof (hiv_insert_ok grow srt SO F (cw_heap s) v p (world_iv F s v G (nth_error_In _ _ E))) as P. destruct (hiv_insert grow srt (cw_heap s) v p) as [[m' v']|]; cbn [option_map fst snd]; [|rewrite P; reflexivity].
    destruct P as (F' & EV & ST). rewrite EV. cbn [option_map]. destruct (world_step F F' s v m' v' i G E ST) as (I & G' & K & W). split; [rewrite W; reflexivity|]. exists F'. auto.
  - rewrite show_nth. destruct (nth_error (cw_objs s) i) as [v|] eqn:E; cbn [option_map]; [|reflexivity].
    pose proof (hiv_remove_ok grow srt SO hsrt F (cw_heap s) v p (world_iv F s v G (nth_error_In _ _ E))) as P. destruct (hiv_remove grow srt hsrt (cw_heap s) v p) as [[m' v']|]; cbn [option_map fst snd]; [|rewrite P; reflexivity].
    destruct P as (F' & EV & ST). rewrite EV. cbn [option_map]. destruct (world_step F F' s v m' v' i G E ST) as (I & G' & K & W). split; [rewrite W; reflexivity|]. exists F'. auto.
  - rewrite !show_nth. destruct (nth_error (cw_objs s) i) as [v|] eqn:E; cbn [option_map]; [|reflexivity]. destruct (nth_error (cw_objs s) j) as [u|] eqn:E2; cbn [option_map]; [|reflexivity].
    rewrite hiv_set_ok. destruct (hiv_set v u) as [v'|] eqn:ES; cbn [option_map]; [|reflexivity].
    unfold hiv_set in ES. destruct (d_set (hv_d v) (hv_d u)) as [d|]; [|discriminate]. destruct (table_set (hv_map v) (hv_map u)) as [gm|] eqn:ET; [|discriminate]. injection ES as <-.
    split; [f_equal; unfold show_world; cbn [cw_heap cw_objs]; apply set_nth_map|]. exists F. split; [intros x; auto|]. destruct G as [Fr G]. split; [split; [exact Fr|]|intros k _; reflexivity].
    intros x Ix. cbn [cw_objs cw_heap] in *. apply in_set_nth in Ix as [->|Ix]; [|exact (G x Ix)]. cbn [hv_points hv_new hv_map]. split; [apply (G v (nth_error_In _ _ E))|].
    intros k Ik. apply (G u (nth_error_In _ _ E2)). unfold hm_iter in *. apply in_map_iff in Ik as (e & <- & Ie). apply in_map, (table_set_in _ _ _ _ ET Ie).
Qed.
Lemma c_run_ok ops : forall F s, world_good F s -> Forall two_diagrams ops ->
  match c_run grow srt hsrt s ops with
  | None => cv_run srt hsrt (show_world s) ops = None
  | Some s' => cv_run srt hsrt (show_world s) ops = Some (show_world s') /\ exists F', incl F F' /\ world_good F' s' /\ forall k, In k F -> keeps s s' k
  end.
Proof.
  unfold c_run, cv_run. induction ops as [|o ops IH]; intros F s G T; cbn [foldM].
  - split; [reflexivity|]. exists F. split; [intros x; auto|]. split; [exact G|]. intros k _. reflexivity.
  - inversion T as [|? ? To T']; subst. pose proof (c_exec_ok F s o G To) as P. destruct (c_exec grow srt hsrt s o) as [s1|]; [|rewrite P; reflexivity]. destruct P as (E & F1 & I1 & G1 & K1). rewrite E.
    specialize (IH F1 s1 G1 T'). destruct (foldM (c_exec grow srt hsrt) ops s1) as [s2|]; [|exact IH]. destruct IH as (E2 & F2 & I2 & G2 & K2). split; [exact E2|]. exists F2. split; [intros x Ix; auto|]. split; [exact G2|].
    intros k Ik. unfold keeps in *. rewrite (K2 k (I1 k Ik)). apply K1, Ik.
Qed.
Lemma start_good : world_good [] no_diagrams.
Proof. split; [intros k []|intros v []]. Qed.
End World.

(* ---------------------------------------------------------------- *)
(** * The cache of the polygon functions *)
Definition entry_apart (m : heapz) (data : header) (e : hentry) : Prop := valid_hd m (he_coords e) /\ h_arr (he_coords e) <> h_arr data.
Record loop_inv (s : hpstate) : Prop := {
  li_data : valid_hd (hp_heap s) (hp_data s);
  li_next : forall e, In e (hp_next s) -> entry_apart (hp_heap s) (hp_data s) e;
  li_tris : forall e, In (Some e) (hp_tris s) -> entry_apart (hp_heap s) (hp_data s) e }.
Definition show_loop (s : hpstate) : pstate := PS (hp_diff s) (map (show_entry (hp_heap s)) (hp_next s)) (map (option_map (show_entry (hp_heap s))) (hp_tris s)).

Lemma entry_kept X m m' data e : touches X m m' -> (forall x, In x X -> x = h_arr data) -> entry_apart m data e -> show_entry m' e = show_entry m e.
Proof.
  intros T H [V N]. unfold show_entry. f_equal. apply (touches_elems _ _ _ _ T); [apply V|]. intros I. apply N, H, I.
Qed.
Lemma h_poly_step_ok grow im alias s l : loop_inv s ->
  match h_poly_step grow im alias s l with
  | None => poly_step im alias (show_loop s) l = None
  | Some s' => poly_step im alias (show_loop s) l = Some (show_loop s') /\ loop_inv s' /\ touches [h_arr (hp_data s)] (hp_heap s) (hp_heap s') /\ moved (hp_heap s) (hp_data s) (hp_data s')
  end.
Proof.
  intros [V N T]. unfold h_poly_step, poly_step. set (poly := fast_polygon l). destruct (refill 0%Z grow (hp_heap s) (hp_data s) (poly_coords poly)) as [m1 data1] eqn:E1.
  destruct (refill_ok _ _ _ _ _ _ _ V E1) as (Q1 & V1 & T1 & M1). rewrite Q1. cbn [show_loop ps_tris ps_diff ps_next]. rewrite !map_length, znth_map.
  set (index0 := cache_index _ _). destruct (znth (hp_tris s) index0) as [data|] eqn:ZN; cbn [option_map]; [|reflexivity].
  assert (KA : forall e, entry_apart (hp_heap s) (hp_data s) e -> entry_apart m1 data1 e /\ show_entry m1 e = show_entry (hp_heap s) e).
  { intros e [Ve Ne]. split; [|apply (entry_kept _ _ _ (hp_data s) e T1); [intros x [<-|[]]; reflexivity|split; assumption]]. split; [exact (touches_valid _ _ _ _ T1 Ve)|].
    destruct M1 as [q|G]; [congruence|destruct Ve; lia]. }
  set (miss := match poly_diff im poly with None => None | Some diff => let (m2, new) := fresh_copy 0%Z grow m1 (poly_coords poly) in Some (m2, HE new diff index0) end).
  set (found := match data with None => miss | Some e => if same_coords (elems m1 (he_coords e)) (poly_coords poly) then Some (m1, e) else miss end).
  set (vmiss := match poly_diff im poly with None => None | Some diff => Some (PEntry (poly_coords poly) diff index0) end).
  set (vfound := match option_map (show_entry (hp_heap s)) data with None => vmiss | Some e => if same_coords (q_coords e) (poly_coords poly) then Some e else vmiss end).
  assert (K : match found with None => vfound = None | Some (m2, e) => vfound = Some (show_entry m2 e) /\ entry_apart m2 data1 e /\ touches [] m1 m2 end).
  { assert (KM : match miss with None => vmiss = None | Some (m2, e) => vmiss = Some (show_entry m2 e) /\ entry_apart m2 data1 e /\ touches [] m1 m2 end).
    { subst miss vmiss. destruct (poly_diff im poly) as [diff|]; [|reflexivity]. destruct (fresh_copy 0%Z grow m1 (poly_coords poly)) as [m2 new] eqn:EF. destruct (fresh_ok _ _ _ _ _ _ EF) as (Qk & Vk & Tk & Ak).
      split; [unfold show_entry; cbn [he_coords he_fit he_hash]; rewrite Qk; reflexivity|]. split; [|exact Tk]. split; cbn [he_coords]; [exact Vk|destruct V1; lia]. }
    subst found vfound. destruct data as [e|]; cbn [option_map]; [|exact KM]. assert (Ie : In (Some e) (hp_tris s)) by (unfold znth in ZN; destruct (index0 <? 0)%Z; [discriminate|eapply nth_error_In, ZN]).
    destruct (KA e (T e Ie)) as [Ae Se]. cbn [q_coords show_entry]. assert (Ec : elems (hp_heap s) (he_coords e) = elems m1 (he_coords e)) by (unfold show_entry in Se; congruence). rewrite Ec.
    destruct (same_coords (elems m1 (he_coords e)) (poly_coords poly)); [|exact KM]. split; [rewrite Se; reflexivity|]. split; [exact Ae|apply touches_refl]. }
  destruct found as [[m2 e]|]; [|rewrite K; reflexivity]. destruct K as (EV & Ae & T2). rewrite EV.
  assert (KB : forall x, entry_apart (hp_heap s) (hp_data s) x -> entry_apart m2 data1 x /\ show_entry m2 x = show_entry (hp_heap s) x).
  { intros x Ax. destruct (KA x Ax) as [A1 S1]. split; [destruct A1 as [v n]; split; [exact (touches_valid _ _ _ _ T2 v)|exact n]|]. rewrite <- S1. apply (entry_kept _ _ _ data1 x T2); [intros y []|exact A1]. }
  split; [|split; [|split]].
  - f_equal. unfold show_loop. cbn [hp_heap hp_diff hp_next hp_tris].
    assert (EN : map (show_entry (hp_heap s)) (hp_next s) = map (show_entry m2) (hp_next s)) by (apply map_ext_in; intros x Ix; symmetry; apply KB, N, Ix).
    assert (ET : map (option_map (show_entry (hp_heap s))) (hp_tris s) = map (option_map (show_entry m2)) (hp_tris s)).
    { apply map_ext_in. intros [x|] Ix; [|reflexivity]. cbn [option_map]. f_equal. symmetry. apply KB, T, Ix. }
    rewrite EN, ET, map_app. cbn [map]. change (q_fit (show_entry m2 e)) with (he_fit e). destruct alias; [|reflexivity]. f_equal. change (Some (show_entry m2 e)) with (option_map (show_entry m2) (Some e)). apply set_nth_map.
  - constructor; cbn [hp_heap hp_data hp_next hp_tris].
    + exact (touches_valid _ _ _ _ T2 V1).
    + intros x Ix. apply in_app_or in Ix as [Ix|[<-|[]]]; [apply KB, N, Ix|exact Ae].
    + intros x Ix. destruct alias; [|apply KB, T, Ix]. apply in_set_nth in Ix as [[= ->]|Ix]; [exact Ae|apply KB, T, Ix].
  - cbn [hp_heap]. apply (touches_trans _ _ _ _ _ T1 T2). intros y [].
  - exact M1.
Qed.
Lemma h_poly_steps_ok grow im alias ls : forall s, loop_inv s ->
  match foldM (h_poly_step grow im alias) ls s with
  | None => foldM (poly_step im alias) ls (show_loop s) = None
  | Some s' => foldM (poly_step im alias) ls (show_loop s) = Some (show_loop s') /\ loop_inv s' /\ touches [h_arr (hp_data s)] (hp_heap s) (hp_heap s') /\ moved (hp_heap s) (hp_data s) (hp_data s')
  end.
Proof.
  induction ls as [|l ls IH]; intros s I; cbn [foldM].
  - split; [reflexivity|]. split; [exact I|]. split; [apply touches_refl|left; reflexivity].
  - pose proof (h_poly_step_ok grow im alias s l I) as P. destruct (h_poly_step grow im alias s l) as [s1|]; [|rewrite P; reflexivity]. destruct P as (E & I1 & T1 & M1). rewrite E. specialize (IH s1 I1).
    destruct (foldM (h_poly_step grow im alias) ls s1) as [s2|]; [|exact IH]. destruct IH as (E2 & I2 & T2 & M2). split; [exact E2|]. split; [exact I2|]. pose proof (proj1 T1). split.
    + apply (touches_trans _ _ _ _ _ T1 T2). intros y [<-|[]] Ly. destruct M1 as [e|G]; [left; auto|lia].
    + destruct M1, M2; unfold moved; try (right; lia); left; congruence.
Qed.
Lemma h_calc_poly_ok grow im alias m tris v : cache_in_heap m tris ->
  match h_calc_poly grow im alias m tris v with
  | None => calc_poly im alias (map (option_map (show_entry m)) tris) v = None
  | Some (m', fit, next) => calc_poly im alias (map (option_map (show_entry m)) tris) v = Some (fit, map (show_entry m') next) /\ touches [] m m' /\ (forall e, In e next -> in_heap m' e)
  end.
Proof.
  intros C. unfold h_calc_poly, calc_poly. destruct (make_empty 0%Z m 0) as [m1 data] eqn:E. destruct (make_ok _ _ _ _ _ E) as (_ & V & T & A).
  assert (I : loop_inv (HP m1 data f0 [] tris)).
  { constructor; cbn [hp_heap hp_data hp_next hp_tris]; [exact V|intros e []|]. intros e Ie. pose proof (C e Ie) as [B L]. split; [exact (touches_valid _ _ _ _ T (conj B L))|lia]. }
  assert (ES : PS f0 [] (map (option_map (show_entry m)) tris) = show_loop (HP m1 data f0 [] tris)).
  { unfold show_loop. cbn [hp_heap hp_diff hp_next hp_tris map]. f_equal. apply map_ext_in. intros [e|] Ie; [|reflexivity]. cbn [option_map]. f_equal. unfold show_entry. f_equal. symmetry.
    apply (touches_elems _ _ _ _ T); [apply (C e Ie)|intros []]. }
  rewrite ES. pose proof (h_poly_steps_ok grow im alias (iv_iter v) _ I) as P. destruct (foldM (h_poly_step grow im alias) (iv_iter v) (HP m1 data f0 [] tris)) as [s|]; cbn [option_map]; [|rewrite P; reflexivity].
  destruct P as (E2 & I2 & T2 & _). rewrite E2. cbn [option_map]. split; [reflexivity|]. split.
  - apply (touches_trans _ _ _ _ _ T T2). cbn [hp_data]. intros y [<-|[]] Ly. lia.
  - intros e Ie. apply (li_next _ I2 e Ie).
Qed.
