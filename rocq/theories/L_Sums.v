(** The sums a triangle's score is computed from (C25). *)
From Coq Require Import ZArith Reals List Bool Lia Lra Permutation Psatz.
From Flocq Require Import Core IEEE754.BinarySingleNaN.
From Verif Require Import GoNum FloatLemmas M_Norm S_Norm M_Slice M_Geom S_Geom M_Image S_Image L_Image M_Raster S_Raster L_Raster1 L_Raster2 L_Raster3 L_Raster4 L_Raster5
  M_Render L_Render L_Blocks M_Delaunay M_Algo M_Fitness S_Fitness.
Import ListNotations.
Open Scope Z_scope.

Lemma sum_over_app {A} (f : A -> Z) l l' : sum_over f (l ++ l') = sum_over f l + sum_over f l'.
Proof. unfold sum_over. induction l as [|a l IH]; cbn [app fold_right]; [reflexivity|]. rewrite IH. apply Z.add_assoc. Qed.
Lemma sum_over_perm {A} (f : A -> Z) l l' : Permutation l l' -> sum_over f l = sum_over f l'.
Proof. unfold sum_over. induction 1; cbn [fold_right] in *; lia. Qed.
Lemma sum_over_map {A B} (f : B -> Z) (g : A -> B) l : sum_over f (map g l) = sum_over (fun a => f (g a)) l.
Proof. induction l as [|a l IH]; cbn; [reflexivity|]. unfold sum_over in IH. rewrite IH. reflexivity. Qed.
Lemma sum_over_flat {A B} (f : B -> Z) (g : A -> list B) l : sum_over f (flat_map g l) = sum_over (fun a => sum_over f (g a)) l.
Proof. induction l as [|a l IH]; [reflexivity|]. cbn [flat_map]. rewrite sum_over_app, IH. reflexivity. Qed.
Lemma sum_over_ext {A} (f g : A -> Z) l : (forall a, In a l -> f a = g a) -> sum_over f l = sum_over g l.
Proof.
  induction l as [|a l IH]; intros H; [reflexivity|]. cbn [sum_over fold_right]. fold (sum_over f l) (sum_over g l).
  rewrite (H a) by (left; reflexivity). rewrite IH; [reflexivity|]. intros b Hb. apply H. right. exact Hb.
Qed.
Lemma sum_over_bound {A} (f : A -> Z) c l : 0 <= c -> (forall a, 0 <= f a <= c) -> 0 <= sum_over f l <= c * Z.of_nat (length l).
Proof.
  intros Hc H. induction l as [|a l IH]; cbn [sum_over fold_right length]; [lia|]. fold (sum_over f l). specialize (H a). lia.
Qed.
Lemma sum_over_zfor f x n : sum_over f (zfor x (x + Z.of_nat n)) = sum_to n (fun i => f (x + i)).
Proof.
  induction n as [|n IH]; [rewrite zfor_nil by lia; reflexivity|]. cbn [sum_to]. rewrite <- IH.
  rewrite (zfor_app x (x + Z.of_nat n)) by lia. rewrite sum_over_app. f_equal.
  rewrite zfor_cons by lia. rewrite zfor_nil by lia. cbn. lia.
Qed.
Lemma sum_to_plus n f g : sum_to n (fun i => f i + g i) = sum_to n f + sum_to n g.
Proof. induction n as [|n IH]; cbn [sum_to]; lia. Qed.
Lemma sum_to_0 n : sum_to n (fun _ => 0) = 0.
Proof. induction n as [|n IH]; cbn [sum_to]; lia. Qed.
Lemma sum_to_swap m n f : sum_to m (fun i => sum_to n (fun j => f i j)) = sum_to n (fun j => sum_to m (fun i => f i j)).
Proof. induction m as [|m IH]; cbn [sum_to]; [rewrite sum_to_0; reflexivity|]. rewrite IH, <- sum_to_plus. reflexivity. Qed.

Lemma block_sum_pixels n x y f : 0 <= n -> block_sum n x y f = sum_over (fun p => f (fst p) (snd p)) (event_pixels n (Block x y)).
Proof.
  intros Hn. cbn [event_pixels]. rewrite sum_over_flat. unfold block_sum. rewrite sum_to_swap.
  replace (y + n) with (y + Z.of_nat (Z.to_nat n)) by lia. rewrite sum_over_zfor. apply sum_to_ext. intros j Hj.
  rewrite sum_over_map. cbn [fst snd]. replace (x + n) with (x + Z.of_nat (Z.to_nat n)) by lia. rewrite sum_over_zfor. reflexivity.
Qed.

Definition plus_sums (a b : sums) : sums := Sums (s_n a + s_n b) (s_r a + s_r b) (s_g a + s_g b) (s_b a + s_b b) (s_sq a + s_sq b).
Lemma pixel_sums_app im l l' : pixel_sums im (l ++ l') = plus_sums (pixel_sums im l) (pixel_sums im l').
Proof. unfold pixel_sums, plus_sums. cbn [s_n s_r s_g s_b s_sq]. rewrite !sum_over_app, app_length, Nat2Z.inj_add. reflexivity. Qed.
Lemma pixel_sums_perm im l l' : Permutation l l' -> pixel_sums im l = pixel_sums im l'.
Proof. intros P. unfold pixel_sums. rewrite !(sum_over_perm _ _ _ P), (Permutation_length P). reflexivity. Qed.

Lemma stored_bound im p : good_image im -> inside im p -> 
  0 <= p_r (stored im p) <= 255 /\ 0 <= p_g (stored im p) <= 255 /\ 0 <= p_b (stored im p) <= 255 /\ 0 <= p_sq (stored im p) <= 195075.
Proof.
  intros (_ & _ & G) [Hx Hy]. unfold stored. destruct (G (fst p) (snd p) Hx Hy) as (c & -> & U). apply to_pixel_range, U.
Qed.
Lemma sum_over_bound_in {A} (f : A -> Z) c l : 0 <= c -> (forall a, In a l -> 0 <= f a <= c) -> 0 <= sum_over f l <= c * Z.of_nat (length l).
Proof.
  intros Hc H. induction l as [|a l IH]; cbn [sum_over fold_right length]; [lia|]. fold (sum_over f l).
  pose proof (H a (or_introl eq_refl)). assert (0 <= sum_over f l <= c * Z.of_nat (length l)) by (apply IH; intros b Hb; apply H; right; exact Hb). lia.
Qed.
Lemma pixel_sums_bound im l : good_image im -> Forall (inside im) l -> let s := pixel_sums im l in let n := Z.of_nat (length l) in
  s_n s = n /\ 0 <= s_r s <= 255 * n /\ 0 <= s_g s <= 255 * n /\ 0 <= s_b s <= 255 * n /\ 0 <= s_sq s <= 195075 * n.
Proof.
  intros G F. rewrite Forall_forall in F. cbv zeta. cbn [pixel_sums s_n s_r s_g s_b s_sq]. split; [reflexivity|].
  split; [|split; [|split]]; apply sum_over_bound_in; try lia; intros p Hp; pose proof (stored_bound im p G (F p Hp)); lia.
Qed.

Lemma i64_small z : - 2 ^ 63 <= z < 2 ^ 63 -> i64 z = z.
Proof.
  intros H. unfold i64, wraps. change (2 ^ (64 - 1)) with (2 ^ 63). rewrite Z.mod_small by lia. lia.
Qed.

Section One.
Variables (im : idata) (fi : fimg) (bs : Z) (fuel : nat).
Hypothesis G : good_image im.
Hypothesis Hw : i_w im <= 32767.
Hypothesis Hh : i_h im <= 32767.
Hypothesis Hbs : 1 <= bs <= 16.
Hypothesis Hbw : bs <= i_w im + 1.
Hypothesis Hbh : bs <= i_h im + 1.
Hypothesis E : new_fimg fuel im bs = Some fi.

Lemma fimg_rows : fi_bs fi = bs /\
  (forall y, 0 <= y < i_h im -> exists row, znth (fi_px fi) y = Some row /\ Z.of_nat (length row) = i_w im /\
     forall x, 0 <= x < i_w im -> znth row x = Some (stored im (x, y))) /\
  (forall x y, 0 <= x <= i_w im - bs -> 0 <= y <= i_h im - bs -> exists row, znth (fi_pxn fi) y = Some row /\
     let s := pixel_sums im (event_pixels bs (Block x y)) in znth row x = Some (Px (s_r s) (s_g s) (s_b s) (s_sq s))).
Proof.
  unfold new_fimg in E. destruct (from_image_total im G) as (t & Et & Lt & Pt & Rt). rewrite Et in E.
  destruct (from_imageN_spec im bs t G ltac:(lia) Hbw Hbh Et) as (tn & En & Ln & Rn & Pn). rewrite En in E. injection E as <-.
  cbn [fi_bs fi_px fi_pxn]. split; [reflexivity|]. split.
  - intros y Hy. destruct (znth t y) as [row|] eqn:Er.
    + exists row. split; [reflexivity|]. split.
      * assert (Hin : In row t). { unfold znth in Er. destruct (y <? 0); [discriminate|]. apply (nth_error_In _ _ Er). }
        rewrite (Rt row Hin). pose proof G as (? & _). lia.
      * intros x Hx. destruct (Pt x y Hx Hy) as (c & Ec & _ & Q). rewrite Er in Q. rewrite Q. unfold stored. cbn [fst snd]. rewrite Ec. reflexivity.
    + exfalso. apply (proj1 (L_Image.znth_Some t y)); [lia|exact Er].
  - intros x y Hx Hy. destruct (Pn x y Hx Hy) as [_ Q]. specialize (Q ltac:(lia)). destruct (znth tn y) as [row|] eqn:Er; [|discriminate].
    exists row. split; [reflexivity|]. rewrite Q. cbn [pixel_sums s_r s_g s_b s_sq].
    assert (X : forall f, block_sum bs x y (fun a b => f (tab t a b)) = sum_over (fun p => f (stored im p)) (event_pixels bs (Block x y))).
    { intros f. rewrite block_sum_pixels by lia. apply sum_over_ext. intros [a b] Hab. cbn [fst snd]. cbn [event_pixels] in Hab.
      apply in_flat_map in Hab as (b' & Hb & Hab). apply in_map_iff in Hab as (a' & [= -> ->] & Ha). apply zfor_In in Ha. apply zfor_In in Hb.
      destruct (Pt a b ltac:(lia) ltac:(lia)) as (c & Ec & _ & Qc). unfold tab, stored. cbn [fst snd]. rewrite Ec.
      destruct (znth t b); [|discriminate]. rewrite Qc. reflexivity. }
    rewrite !X. reflexivity.
Qed.

Lemma add_px_fold row y l : forall s, (forall x, In x l -> znth row x = Some (stored im (x, y))) -> Forall (inside im) (map (fun x => (x, y)) l) ->
  let n := Z.of_nat (length l) in
  0 <= s_r s <= 2 ^ 60 -> 0 <= s_g s <= 2 ^ 60 -> 0 <= s_b s <= 2 ^ 60 -> 0 <= s_sq s <= 2 ^ 60 -> n <= 2 ^ 32 ->
  foldM (fun s x => match znth row x with None => None | Some p => Some (add_px s p) end) l s =
    Some (Sums (s_n s) (s_r s + s_r (pixel_sums im (map (fun x => (x, y)) l))) (s_g s + s_g (pixel_sums im (map (fun x => (x, y)) l)))
       (s_b s + s_b (pixel_sums im (map (fun x => (x, y)) l))) (s_sq s + s_sq (pixel_sums im (map (fun x => (x, y)) l)))).
Proof.
  assert (K : forall l s B, (forall x, In x l -> znth row x = Some (stored im (x, y))) -> Forall (inside im) (map (fun x => (x, y)) l) ->
    0 <= B -> B + 195075 * Z.of_nat (length l) < 2 ^ 62 -> 0 <= s_r s <= B -> 0 <= s_g s <= B -> 0 <= s_b s <= B -> 0 <= s_sq s <= B ->
    foldM (fun s x => match znth row x with None => None | Some p => Some (add_px s p) end) l s =
    Some (Sums (s_n s) (s_r s + s_r (pixel_sums im (map (fun x => (x, y)) l))) (s_g s + s_g (pixel_sums im (map (fun x => (x, y)) l)))
       (s_b s + s_b (pixel_sums im (map (fun x => (x, y)) l))) (s_sq s + s_sq (pixel_sums im (map (fun x => (x, y)) l))))).
  { clear l. induction l as [|x l IH]; intros s B Hl F HB Hs H1 H2 H3 H4.
    - cbn [foldM map pixel_sums sum_over fold_right s_r s_g s_b s_sq]. rewrite !Z.add_0_r. destruct s; reflexivity.
    - cbn [foldM map]. rewrite (Hl x (or_introl eq_refl)). inversion F as [|? ? Fx Fl]. subst.
      destruct (stored_bound im (x, y) G Fx) as (Q1 & Q2 & Q3 & Q4). cbn [length] in Hs. rewrite Nat2Z.inj_succ in Hs.
      rewrite (IH _ (B + 195075)); [|intros z Hz; apply Hl; right; exact Hz|exact Fl|lia|lia|..].
      + cbn [add_px s_n s_r s_g s_b s_sq pixel_sums]. rewrite !i64_small by lia. cbn [sum_over fold_right].
        f_equal. f_equal; apply Z.add_assoc || (rewrite <- Z.add_assoc; reflexivity).
      + cbn [add_px s_r]. rewrite i64_small; lia.
      + cbn [add_px s_g]. rewrite i64_small; lia.
      + cbn [add_px s_b]. rewrite i64_small; lia.
      + cbn [add_px s_sq]. rewrite i64_small; lia. }
  intros s Hl F n H1 H2 H3 H4 Hn. apply (K l s (2 ^ 60)); auto; lia.
Qed.

Lemma on_event_sums e l : (match e with Line x0 x1 y => 0 <= y < i_h im /\ x0 <= x1 | Block _ _ => True end) ->
  Forall (inside im) (l ++ event_pixels bs e) -> Z.of_nat (length (l ++ event_pixels bs e)) <= 2 ^ 30 ->
  on_event fi (pixel_sums im l) e = Some (pixel_sums im (l ++ event_pixels bs e)).
Proof.
  intros He F Hn. destruct fimg_rows as (Eb & HR & HB). apply Forall_app in F as [F1 F2].
  pose proof (pixel_sums_bound im l G F1) as Bl. cbv zeta in Bl. destruct Bl as (B0 & B1 & B2 & B3 & B4).
  rewrite app_length, Nat2Z.inj_add in Hn. rewrite pixel_sums_app.
  pose proof (pixel_sums_bound im _ G F2) as Be. cbv zeta in Be. destruct Be as (C0 & C1 & C2 & C3 & C4).
  destruct e as [x0 x1 y|x y]; cbn [on_event].
  - destruct He as [Hy Hx]. destruct (HR y Hy) as (row & -> & Lr & Pr). cbn [event_pixels] in *.
    assert (Ln : Z.of_nat (length (map (fun x => (x, y)) (zfor x0 x1))) = x1 - x0) by (rewrite map_length, zfor_length; lia).
    destruct (Z.eq_dec x0 x1) as [->|Nx].
    { rewrite zfor_nil by lia. cbn [foldM map].
      replace (if (0 <=? x1) && (x1 <=? Z.of_nat (length row)) then Some (pixel_sums im l) else Some (pixel_sums im l)) with (Some (pixel_sums im l))
        by (destruct (_ && _); reflexivity).
      unfold add_n, plus_sums. rewrite Z.sub_diag. cbn [pixel_sums s_n s_r s_g s_b s_sq sum_over fold_right length Z.of_nat].
      change (i64 0) with 0. rewrite !Z.add_0_r. rewrite i64_small by lia. reflexivity. }
    assert (In0 : inside im (x0, y)). { rewrite Forall_forall in F2. apply F2. apply (in_map (fun x => (x, y))), zfor_In. lia. }
    assert (In1 : inside im (x1 - 1, y)). { rewrite Forall_forall in F2. apply F2. apply (in_map (fun x => (x, y))), zfor_In. lia. }
    unfold inside in In0, In1. cbn [fst snd] in In0, In1.
    destruct (Z.leb_spec 0 x0); [|lia]. destruct (Z.leb_spec x1 (Z.of_nat (length row))); [|lia]. cbn [andb].
    rewrite (add_px_fold row y (zfor x0 x1)); [| |exact F2|lia|lia|lia|lia|].
    + unfold add_n, plus_sums. cbn [s_n s_r s_g s_b s_sq]. rewrite (i64_small (x1 - x0)) by lia. rewrite B0 at 1. rewrite C0.
      rewrite Ln. rewrite i64_small by lia. rewrite B0. reflexivity.
    + intros x Hx'. apply zfor_In in Hx'. apply Pr. lia.
    + rewrite map_length in Ln. lia.
  - assert (In0 : inside im (x, y)). { rewrite Forall_forall in F2. apply F2. cbn [event_pixels]. apply in_flat_map. exists y. split; [apply zfor_In; lia|].
      apply (in_map (fun a => (a, y))), zfor_In. lia. }
    assert (In1 : inside im (x + bs - 1, y + bs - 1)). { rewrite Forall_forall in F2. apply F2. cbn [event_pixels]. apply in_flat_map. exists (y + bs - 1). split; [apply zfor_In; lia|].
      apply (in_map (fun a => (a, y + bs - 1))), zfor_In. lia. }
    unfold inside in In0, In1. cbn [fst snd] in In0, In1.
    destruct (HB x y ltac:(lia) ltac:(lia)) as (row & -> & Q). cbv zeta in Q. rewrite Q, Eb.
    assert (Ln : Z.of_nat (length (event_pixels bs (Block x y))) = bs * bs).
    { cbn [event_pixels]. clear - Hbs. assert (K : forall l : list Z, Z.of_nat (length (flat_map (fun b => map (fun a => (a, b)) (zfor x (x + bs))) l)) = bs * Z.of_nat (length l)).
      { induction l as [|b l IH]; cbn [flat_map length]; [lia|]. rewrite app_length, map_length, !Nat2Z.inj_add, IH.
        rewrite Nat2Z.inj_succ. rewrite zfor_length. lia. }
      rewrite K, zfor_length. nia. }
    unfold add_n, add_px, plus_sums. cbn [s_n s_r s_g s_b s_sq p_r p_g p_b p_sq]. rewrite C0, Ln, B0.
    assert (0 <= bs * bs <= 256) by nia. rewrite !i64_small; try reflexivity; rewrite ?i64_small; lia.
Qed.

Lemma events_sums ev : forall l, (forall x0 x1 y, In (Line x0 x1 y) ev -> 0 <= y < i_h im /\ x0 <= x1) ->
  Forall (inside im) (l ++ flat_map (event_pixels bs) ev) -> Z.of_nat (length (l ++ flat_map (event_pixels bs) ev)) <= 2 ^ 30 ->
  foldM (on_event fi) ev (pixel_sums im l) = Some (pixel_sums im (l ++ flat_map (event_pixels bs) ev)).
Proof.
  induction ev as [|e ev IH]; intros l Hl F Hn; cbn [foldM flat_map]; [rewrite app_nil_r; reflexivity|].
  cbn [flat_map] in F, Hn. rewrite app_assoc in F, Hn |- *. rewrite on_event_sums.
  - apply IH; [intros x0 x1 y H; apply Hl; right; exact H|exact F|exact Hn].
  - destruct e as [x0 x1 y|]; [|exact I]. apply Hl. left. reflexivity.
  - apply Forall_app in F as [F _]. exact F.
  - rewrite app_length in Hn. lia.
Qed.

Lemma tri_diff_sums a b c v : image_tri im (Tri a b c) -> tri_diff fi a b c = Some v ->
  v = diff_of (pixel_sums im (dda_pixels (Tri a b c))).
Proof.
  intros [HA HV]. unfold tri_diff. destruct fimg_rows as (Eb & _). rewrite Eb.
  destruct (dda_blocks (fi_fuel fi) (Tri a b c) bs) as [ev|] eqn:Ee; [|discriminate].
  assert (HB15 : in_box 15 (Tri a b c)). { intros p Hp. destruct (HV p Hp). change (2 ^ 15) with 32768. lia. }
  pose proof (in_box_mono 15 24 _ ltac:(lia) HB15) as HB24.
  pose proof (proj2 (dda_blocks_spec (Tri a b c) bs ltac:(lia) HB24) (fi_fuel fi) ev Ee) as P.
  assert (HF : Forall (inside im) (dda_pixels (Tri a b c))) by (apply tri_pixels_inside; [lia|lia|apply Forall_forall; exact HV]).
  assert (HL : Z.of_nat (length (dda_pixels (Tri a b c))) <= 2 ^ 30).
  { destruct G as (g1 & g2 & _). pose proof (tri_pixels_count im (Tri a b c) ltac:(lia) ltac:(lia) g1 g2 (proj2 (Forall_forall _ _) HV)). nia. }
  pose proof (events_sums ev []) as S. cbn [app] in S. change (pixel_sums im []) with sums0 in S. rewrite S.
  - cbn [option_map]. intros [= <-]. rewrite (pixel_sums_perm im _ _ P). reflexivity.
  - intros x0 x1 y Hin. destruct (dda_blocks_rows (fi_fuel fi) (Tri a b c) bs ev x0 x1 y ltac:(lia) HB15 HA Ee Hin) as [R1 R2]. split; [|exact R2].
    pose proof (HV a ltac:(cbn; auto)). pose proof (HV b ltac:(cbn; auto)). pose proof (HV c ltac:(cbn; auto)). unfold ymin, ymax in R1. cbn [ta tb tc] in R1. lia.
  - apply (Permutation_Forall (Permutation_sym P)), HF.
  - rewrite (Permutation_length P). exact HL.
Qed.

Lemma tri_diff_total a b c : image_tri im (Tri a b c) -> 2 ^ 56 <= Z.of_nat fuel -> tri_diff fi a b c <> None.
Proof.
  intros [HA HV] Hf. unfold tri_diff. destruct fimg_rows as (Eb & _). rewrite Eb.
  assert (HB15 : in_box 15 (Tri a b c)). { intros p Hp. destruct (HV p Hp). change (2 ^ 15) with 32768. lia. }
  pose proof (in_box_mono 15 24 _ ltac:(lia) HB15) as HB24.
  assert (Ef : fi_fuel fi = fuel). { unfold new_fimg in E. destruct (from_image im), (from_imageN im bs); try discriminate. injection E as <-. reflexivity. }
  rewrite Ef. destruct (dda_blocks_total fuel (Tri a b c) bs ltac:(lia) HB24 Hf) as (ev & Ee & P). rewrite Ee.
  assert (HF : Forall (inside im) (dda_pixels (Tri a b c))) by (apply tri_pixels_inside; [lia|lia|apply Forall_forall; exact HV]).
  assert (HL : Z.of_nat (length (dda_pixels (Tri a b c))) <= 2 ^ 30).
  { destruct G as (g1 & g2 & _). pose proof (tri_pixels_count im (Tri a b c) ltac:(lia) ltac:(lia) g1 g2 (proj2 (Forall_forall _ _) HV)). nia. }
  pose proof (events_sums ev []) as S. cbn [app] in S. change (pixel_sums im []) with sums0 in S. rewrite S; [discriminate|..].
  - intros x0 x1 y Hin. destruct (dda_blocks_rows fuel (Tri a b c) bs ev x0 x1 y ltac:(lia) HB15 HA Ee Hin) as [R1 R2]. split; [|exact R2].
    pose proof (HV a ltac:(cbn; auto)). pose proof (HV b ltac:(cbn; auto)). pose proof (HV c ltac:(cbn; auto)). unfold ymin, ymax in R1. cbn [ta tb tc] in R1. lia.
  - apply (Permutation_Forall (Permutation_sym P)), HF.
  - rewrite (Permutation_length P). exact HL.
Qed.
End One.
