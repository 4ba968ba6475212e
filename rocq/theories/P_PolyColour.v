(** C81: the fitness of cells and the picture of the cells. *)
From Coq Require Import ZArith Reals List Bool Arith Lia Lra Permutation.
From Flocq Require Import Core IEEE754.BinarySingleNaN.
From Verif Require Import GoNum FloatLemmas M_Norm M_Slice M_Geom S_Geom M_Image S_Image L_Image M_Raster S_Raster M_Render L_Render S_Norm M_Delaunay S_Delaunay S_Remove M_Algo S_Algo M_Fitness S_Fitness S_Run S_Run2 S_Bound
  M_Voronoi S_Voronoi M_Polygons S_Polygons S_PolyRun S_PolySum L_Poly L_PolySum L_Sums L_Var L_Hold L_VHold L_Bound P_Algo P_Raster P_Fitness P_Remove P_Run P_Run2 M_Default S_Default P_Default P_Voronoi P_PolySum P_PolyRun P_Colour S_Colour L_Colour L_Colour2 S_PolyColour L_PolyColour.
Import ListNotations.
Open Scope Z_scope.

Lemma conforming_size gi d : to_data gi = Some d -> 1 <= i_w (as_idata d) -> 1 <= i_h (as_idata d) -> 0 <= g_maxx gi /\ 0 <= g_maxy gi.
Proof.
  intros Hd Uw Uh. destruct (Z.lt_ge_cases (g_maxx gi) 0) as [L|L]; [|destruct (Z.lt_ge_cases (g_maxy gi) 0) as [M|M]; [|lia]]; exfalso; unfold to_data in Hd.
  - destruct (_ || _); [discriminate|]. injection Hd as <-. cbn [as_idata i_w d_w] in Uw. lia.
  - destruct (_ || _); [discriminate|]. injection Hd as <-. cbn [as_idata i_h d_h] in Uh. lia.
Qed.
Lemma small_product w h n : 1 <= w <= 1920 -> 1 <= h <= 1920 -> 0 <= n <= 2 ^ 15 -> w * h * n < 2 ^ 53.
Proof. intros. assert (w * h <= 1920 * 1920) by nia. assert (w * h * n <= 1920 * 1920 * 2 ^ 15) by (apply Z.mul_le_mono_nonneg; nia). lia. Qed.
Lemma fan_inside im p : 1 <= i_w im <= 2 ^ 24 -> 1 <= i_h im <= 2 ^ 24 -> image_polygon im p -> Forall (L_Render.inside im) (fan_pixels p).
Proof.
  intros Hw Hh HP. apply Forall_forall. intros q Hq. unfold fan_pixels in Hq. apply in_flat_map in Hq as (t & Ht & Hq).
  assert (Fv : Forall (vertex_inside im) (verts t)). { apply Forall_forall. intros v Hv. rewrite <- fan_is in Ht. apply (HP v). eapply L_Raster3.fan_verts; eauto. }
  pose proof (tri_pixels_inside im t ltac:(lia) ltac:(lia) Fv) as Q. rewrite Forall_forall in Q. auto.
Qed.

(** C81: the score of a cell is the squared error of the cell in the colour PolygonsOnImage gives
    it, in 255ths; at most one too small for every pixel. *)
Theorem C81_score : forall gi d im bs fi poly o v, conforming gi -> to_data gi = Some d -> im = as_idata d -> image_function im bs fi ->
  image_polygon im poly -> poly <> [] -> plain_fan poly -> Z.of_nat (length poly) <= 2 ^ 15 -> Z.of_nat (length (fan_pixels poly)) <= 6876000 -> polygon_on_image im poly = Some o -> poly_diff fi poly = Some v ->
  let l := fan_pixels poly in (65025 * error_of im l (pd_color o) - INR (length l) - / 32 <= B2R v <= 65025 * error_of im l (pd_color o) + / 32)%R.
Proof.
  intros gi d im bs fi poly o v Hc Hd -> Him HP Np PF HL C Eo Ev l.
  pose proof Him as (G & (Uw & Uh & _) & B1 & B2 & B3 & fuel & F & E). set (im := as_idata d) in *. destruct (conforming_size gi d Hd ltac:(fold im; lia) ltac:(fold im; lia)) as [Hx Hy].
  apply (proj1 (C66_exact_pixels im fi bs fuel poly G ltac:(lia) ltac:(lia) B1 B2 B3 E HP HL PF)) in Ev. subst v.
  apply (score_error gi d l (pd_color o)); try assumption; [apply (fan_inside im); [lia|lia|exact HP]|].
  intros Nl. destruct (polygon_color im poly G ltac:(lia) ltac:(lia)) as (o' & Eo' & _ & K); [apply Forall_forall; exact HP|exact Np|apply small_product; lia|]. rewrite Eo in Eo'. injection Eo' as <-.
  rewrite fan_is in K. fold (fan_pixels poly) in K. fold l in K. assert (Es : sampled im l poly = l) by (unfold sampled; destruct l; [congruence|reflexivity]). rewrite Es in K. exact K.
Qed.
Print Assumptions C81_score.

Lemma total_bound {A} (f : A -> R) c l : (forall a, In a l -> (0 <= f a <= c)%R) -> (0 <= total f l <= c * INR (length l))%R.
Proof.
  induction l as [|a l IH]; intros H; [unfold total; cbn [fold_right length INR]; lra|]. rewrite total_cons. change (length (a :: l)) with (S (length l)). rewrite S_INR. destruct (H a (or_introl eq_refl)). destruct IH as [I1 I2]; [intros b Hb; apply H; right; exact Hb|]. split; lra.
Qed.
Lemma unit_square (a b : R) : (0 <= a <= 1)%R -> (0 <= b <= 1)%R -> (0 <= (a - b) * (a - b) <= 1)%R.
Proof.
  intros Ha Hb. assert (D : (-1 <= a - b <= 1)%R) by lra. set (e := (a - b)%R) in *. clearbody e. split; [apply Rle_0_sqr|]. nra.
Qed.
Lemma error_bound im l c : good_image im -> Forall (L_Render.inside im) l -> rgb_unit c -> (0 <= error_of im l c <= 3 * INR (length l))%R.
Proof.
  intros (_ & _ & G) F (U1 & U2 & U3). unfold error_of, sq_error. apply total_bound. intros p Hp. rewrite Forall_forall in F. destruct (F p Hp) as [X Y]. destruct (G _ _ X Y) as (x & E & V1 & V2 & V3). unfold level. rewrite E.
  pose proof unit_square as Q.
  destruct U1 as [_ U1], U2 as [_ U2], U3 as [_ U3], V1 as [_ V1], V2 as [_ V2], V3 as [_ V3].
  pose proof (Q _ _ V1 U1). pose proof (Q _ _ V2 U2). pose proof (Q _ _ V3 U3). split; lra.
Qed.
Definition cell_err (im : idata) (l : list fpoint) : R := match polygon_on_image im (fast_polygon l) with Some o => error_of im (fan_pixels (fast_polygon l)) (pd_color o) | None => 0%R end.
Lemma polygons_total im ls : forall out, polygons_on_image (map fast_polygon ls) im = Some out -> polygons_error im (map fast_polygon ls) (map pd_color out) = total (cell_err im) ls.
Proof.
  unfold polygons_on_image, polygons_error. induction ls as [|l ls IH]; intros out; cbn [map mapM].
  - intros [= <-]. reflexivity.
  - destruct (polygon_on_image im (fast_polygon l)) as [o|] eqn:E; [|discriminate]. destruct (mapM (polygon_on_image im) (map fast_polygon ls)) as [os|] eqn:M; [|discriminate]. intros [= <-].
    cbn [map combine]. rewrite !total_cons, (IH os eq_refl). cbn [fst snd]. unfold cell_err. rewrite E. reflexivity.
Qed.
Lemma push_nonempty l : forall acc, acc <> [] -> fold_left push_point l acc <> [].
Proof.
  induction l as [|p l IH]; intros acc N; [exact N|]. cbn [fold_left]. apply IH. unfold push_point. destruct acc; [congruence|]. destruct (peq _ _); [discriminate|destruct acc; discriminate].
Qed.
Lemma fast_nonempty l : nonempty l = true -> fast_polygon l <> [].
Proof. destruct l as [|p l]; [discriminate|]. intros _. unfold fast_polygon. cbn [map fold_left push_point]. apply push_nonempty. discriminate. Qed.
Lemma covered_sum_over ls : pixels_covered (map fast_polygon ls) = sum_over (fun l => Z.of_nat (length (fan_pixels (fast_polygon l)))) ls.
Proof. unfold pixels_covered, sum_over. induction ls as [|l ls IH]; [reflexivity|]. cbn [map fold_right]. rewrite IH. reflexivity. Qed.
Lemma covered_part ls l : In l ls -> Z.of_nat (length (fan_pixels (fast_polygon l))) <= pixels_covered (map fast_polygon ls).
Proof.
  assert (P : forall ps, 0 <= pixels_covered ps) by (induction ps; cbn [pixels_covered fold_right]; [lia|]; unfold pixels_covered in *; lia).
  induction ls as [|a ls IH]; intros []; cbn [map]; unfold pixels_covered in *; cbn [fold_right]; [subst; pose proof (P (map fast_polygon ls)); unfold pixels_covered in *; lia|]. specialize (IH H). lia.
Qed.

(** C81: the fitness of a diagram is the score of the picture of its cells in their colours, if no
    triangle of the fans is a line and the cells overlap little. *)
Theorem C81_fitness : forall gi data im bs fi v f, conforming gi -> to_data gi = Some data -> im = as_idata data -> image_function im bs fi -> framed fi v -> plain_pfitness fi v = Some f ->
  let polys := map fast_polygon (iv_iter v) in
  (forall p, In p polys -> plain_fan p /\ Z.of_nat (length p) <= 2 ^ 15) -> 2 * pixels_covered polys <= 3 * (i_w im * i_h im) -> Z.of_nat (length polys) <= 4 * (i_w im * i_h im) ->
  exists out, polygons_on_image polys im = Some out /\
    let s := polygons_score im (polygons_error im polys (map pd_color out)) in (s - 0.0000013 <= B2R f <= s + 0.000009)%R.
Proof.
  intros gi data im bs fi v f Hc Hd Ei Him Fr Ef polys HP Hcov Hlen. pose proof Him as (G & U & B1 & B2 & B3 & fuel & F & E). pose proof U as (Uw & Uh & Un).
  destruct (new_fimg_fields _ _ _ _ E) as (Ew & Eh & Mx). assert (W : 1 <= i_w im * i_h im <= 3686400) by nia.
  assert (IP : forall l, In l (iv_iter v) -> image_polygon im (fast_polygon l)) by (intros l Il; apply (framed_polygon im fi v l); try lia; assumption).
  assert (NE : forall l, In l (iv_iter v) -> fast_polygon l <> []) by (intros l Il; apply fast_nonempty; unfold iv_iter in Il; apply filter_In in Il; apply Il).
  destruct (polygons_render im polys G ltac:(lia) ltac:(lia)) as (out & Eo & Fo).
  { apply Forall_forall. intros p Ip. pose proof (HP p Ip) as [_ L15]. unfold polys in Ip. apply in_map_iff in Ip as (l & <- & Il). split; [apply Forall_forall; exact (IP l Il)|]. split; [exact (NE l Il)|]. apply small_product; lia. }
  exists out. split; [exact Eo|]. cbv zeta. unfold polys. rewrite (polygons_total im (iv_iter v) out Eo). unfold polygons_score.
  assert (TS : forall l, In l (iv_iter v) -> 0 <= Z.of_nat (length (fan_pixels (fast_polygon l))) /\ (0 <= 65025 * cell_err im l <= 195075 * IZR (Z.of_nat (length (fan_pixels (fast_polygon l)))))%R /\
     forall x, poly_diff fi (fast_polygon l) = Some x -> fin x /\ (65025 * cell_err im l - IZR (Z.of_nat (length (fan_pixels (fast_polygon l)))) - / 32 <= R64 x <= 65025 * cell_err im l + / 32)%R).
  { intros l Il. split; [lia|]. destruct (HP _ (in_map fast_polygon _ _ Il)) as [PF L15].
    destruct (polygons_render im [fast_polygon l] G ltac:(lia) ltac:(lia)) as (o1 & E1 & F1); [constructor; [|constructor]; split; [apply Forall_forall; exact (IP l Il)|]; split; [exact (NE l Il)|apply small_product; lia]|].
    unfold polygons_on_image in E1. cbn [mapM] in E1. destruct (polygon_on_image im (fast_polygon l)) as [o|] eqn:Ep; [|discriminate]. injection E1 as <-. inversion F1 as [|? ? ? ? [_ RU] _].
    unfold cell_err. rewrite Ep. rewrite <- INR_IZR_INZ. pose proof (error_bound im (fan_pixels (fast_polygon l)) (pd_color o) G (fan_inside im (fast_polygon l) ltac:(lia) ltac:(lia) (IP l Il)) RU) as EB. split; [split; lra|]. intros z Ez. split; [apply (poly_diff_finite _ _ _ Ez)|].
    apply (C81_score gi data im bs fi (fast_polygon l) o z Hc Hd Ei Him (IP l Il) (NE l Il) PF L15); try assumption. pose proof (covered_part (iv_iter v) l Il) as CP. fold polys in CP. lia. }
  unfold plain_pfitness, plain_psum in Ef. destruct (foldM _ (iv_iter v) f0) as [x|] eqn:Ex; [|discriminate]. injection Ef as <-.
  unfold polys in Hcov, Hlen. rewrite covered_sum_over in Hcov. rewrite map_length in Hlen.
  assert (K0 : 0 <= sum_over (fun l => Z.of_nat (length (fan_pixels (fast_polygon l)))) (iv_iter v)). { rewrite <- (Z.mul_0_l (Z.of_nat (length (iv_iter v)))), <- (sum_over_const 0 (iv_iter v)). apply sum_over_le. intros. lia. }
  pose proof (psum_close fi (fun l => 65025 * cell_err im l)%R (fun l => Z.of_nat (length (fan_pixels (fast_polygon l)))) (iv_iter v) 0 0 0%R f0 x ltac:(lia) ltac:(lia) ltac:(lia) ltac:(lia) TS eq_refl) as L.
  rewrite f0_R in L. specialize (L ltac:(lra) ltac:(lra) Ex). cbv zeta in L. rewrite !Z.add_0_l, Rplus_0_l, total_scale in L. destruct L as (Fx & Bs & Bx).
  change max_pixel_difference with 195075 in Mx. rewrite (i64_small (195075 * i_w im)) in Mx by lia. rewrite <- Z.mul_assoc in Mx. rewrite (i64_small (195075 * (i_w im * i_h im))) in Mx by lia. rewrite Mx.
  destruct (of_Z_R (195075 * (i_w im * i_h im)) ltac:(lia)) as [Fm Em].
  exact (pfit_close (i_w im * i_h im) _ (Z.of_nat (length (iv_iter v))) x _ (total (cell_err im) (iv_iter v)) W K0 Hcov ltac:(lia) Fx Fm Em Bs Bx).
Qed.
Print Assumptions C81_fitness.

(** The whole numbers of a picture: at most (w+1)(h+1) different points. *)
Lemma few_points w h (qs : list point) : 0 <= w -> 0 <= h -> NoDup qs -> (forall q, In q qs -> in_image w h q) -> Z.of_nat (length qs) <= (w + 1) * (h + 1).
Proof.
  intros Hw Hh ND HI. set (zs := fun n => map Z.of_nat (seq 0 (Z.to_nat (n + 1)))).
  assert (IZ : forall n a, 0 <= a <= n -> In a (zs n)) by (intros n a Ha; unfold zs; apply in_map_iff; exists (Z.to_nat a); split; [lia|apply in_seq; lia]).
  assert (L : (length qs <= length (map (fun ab => Pt (fst ab) (snd ab)) (list_prod (zs w) (zs h))))%nat).
  { apply NoDup_incl_length; [exact ND|]. intros [a b] Hq. apply HI in Hq. destruct Hq as [Ha Hb]. apply in_map_iff. exists (a, b). split; [reflexivity|]. apply in_prod; apply IZ; assumption. }
  rewrite map_length, prod_length in L. unfold zs in L. rewrite !map_length, !seq_length in L. nia.
Qed.
Lemma filter_short {A} (f : A -> bool) l : (length (filter f l) <= length l)%nat.
Proof. induction l as [|a l IH]; cbn [filter length]; [lia|]. destruct (f a); cbn [length]; lia. Qed.

(** C81 on runs: what the fitness of every member says about the picture of its cells. *)
Section Runs.
Context (gi : goimage) (data : rgbdata) (bs : Z) (im : fimg) (srt : sorter).
Hypothesis SO : sorter_ok srt.
Hypothesis CI : conforming gi.
Hypothesis TD : to_data gi = Some data.
Hypothesis IF : image_function (as_idata data) bs im.

Lemma held_picture l p i pts f : usual_size (fi_w im) (fi_h im) -> holdsat (plain_pfitness im) (vor_of im srt) l (pstrip p) i pts f -> cells_score (as_idata data) im p i f.
Proof.
  intros Hs (OK & id & v & A & B & D). rewrite b_at_pstrip in A. destruct (pat_pos p i) as [[id' t]|] eqn:Ea; [|discriminate]. cbn [option_map fst snd] in A.
  injection A as -> T B0. exists id, t, v. split; [exact Ea|]. split; [exact T|].
  intros polys HP HC. apply (C81_fitness gi data (as_idata data) bs im v f CI TD eq_refl IF); try assumption.
  - eapply vor_framed; eauto.
  - destruct (vor_shown im srt SO Hs pts v B) as (Q & qs & cells & PQ & (ND & HQ & F2) & EI). unfold polys. rewrite map_length, EI.
    pose proof (filter_short nonempty cells) as S1. assert (LF : length qs = length cells) by (clear - F2; induction F2; cbn [length]; lia). rewrite <- LF in S1.
    pose proof IF as (G & _ & B1 & B2 & B3 & fuel & F & E). destruct (new_fimg_fields _ _ _ _ E) as (Ew & Eh & Mx). rewrite <- Ew, <- Eh. pose proof Hs as Hs2. destruct Hs as (Hw & Hh & _).
    pose proof (few_points (fi_w im) (fi_h im) qs ltac:(lia) ltac:(lia) ND) as FP. assert (FI : forall q, In q qs -> in_image (fi_w im) (fi_h im) q).
    { intros q Hq. apply HQ in Hq. eapply Permutation_in in Hq; [|exact PQ]. apply in_map_iff in Hq as (x & <- & Hx). apply L_Tri.point_in_image; [unfold L_Insert.size_ok; destruct Hs2 as (? & ? & ?); lia|]. destruct OK as [_ OK]. rewrite Forall_forall in OK. auto. }
    specialize (FP FI). nia.
Qed.
End Runs.

Theorem C81_simple : forall gi data bs im srt hsrt cutoff n l pow2 c, conforming gi -> to_data gi = Some data -> image_function (as_idata data) bs im -> sorter_ok srt -> hull_sort hsrt -> Z.of_nat l <= 32765 -> cutoff <> 0%nat ->
  simple_run_on (pparallel im srt hsrt) (new_pparallel n pow2) cutoff n l c -> forall i, (i < n)%nat -> cells_score (as_idata data) im (c_ev c) i (nth i (c_fits c) f0).
Proof.
  intros gi data bs im srt hsrt cutoff n l pow2 c CI TD IF SO [Hp Hh] Hl Hc R i Hi. pose proof (im_usual _ _ _ IF) as Hs. destruct (psimple_run_inv im srt hsrt cutoff n l pow2 SO Hs Hp Hh Hl Hc c R) as [_ _ [_ He] _ _].
  eapply held_picture; eauto.
Qed.
Print Assumptions C81_simple.
Theorem C81_genetic : forall gi data bs im srt hsrt cutoff n l pow2 g, conforming gi -> to_data gi = Some data -> image_function (as_idata data) bs im -> sorter_ok srt -> hull_sort hsrt -> Z.of_nat l <= 32765 ->
  cutoff <> 0%nat -> (2 * cutoff <= n)%nat -> genetic_run_on (pparallel im srt hsrt) (new_pparallel n pow2) cutoff n l g -> let c := g_core g in
  forall i, (i < cutoff)%nat \/ ((i < n)%nat /\ flt f0 (nth i (c_fits c) f0) = true) -> cells_score (as_idata data) im (c_ev c) i (nth i (c_fits c) f0).
Proof.
  intros gi data bs im srt hsrt cutoff n l pow2 g CI TD IF SO HS Hl Hc H2 R c i Hi. pose proof (im_usual _ _ _ IF) as Hs. pose proof HS as [Hp Hh].
  destruct (pgenetic_run_inv im srt hsrt cutoff n l pow2 SO Hs Hp Hh Hl Hc H2 g R) as [_ _ (_ & _ & He) _ _].
  destruct (C68_genetic im srt hsrt cutoff n l pow2 g SO Hs HS Hl Hc H2 R) as [_ T]. assert (Hin : (i < n)%nat) by lia.
  destruct (He i Hin) as [[A _]|[A _]]; [eapply held_picture; eauto|]. exfalso. destruct Hi as [Hi|[_ P]].
  - destruct (T i Hi) as [_ P]. fold c in P. change (nth i (c_fits c) f0 = f0) in A. rewrite A in P. discriminate.
  - change (nth i (c_fits c) f0 = f0) in A. rewrite A in P. discriminate.
Qed.
Print Assumptions C81_genetic.

(** * The cells of five points on a 100x100 image
    No line in the fans, and together they cover every pixel once. *)
Definition five : list point := [Pt 20 20; Pt 80 25; Pt 75 80; Pt 15 70; Pt 50 45].
Notation five_pts := (map (to_norm 100 100) five).
Definition vor_on (w h : Z) (pts : list npoint) : option ivor :=
  match new_voronoi w h with None => None | Some v => foldM (fun v p => iv_insert slice_sort v (create_point (nx p) (ny p) w h)) pts v end.
Definition plain_check (w h : Z) (o : option ivor) : bool :=
  match o with None => false | Some v => let polys := map fast_polygon (iv_iter v) in
    forallb (fun p => forallb (fun t => negb (tarea t =? 0)) (fan p) && (Z.of_nat (length p) <=? 5)) polys && (pixels_covered polys =? w * h) && (length polys =? 5)%nat end.
Lemma five_plain : plain_check 100 100 (vor_on 100 100 five_pts) = true. Proof. vm_compute. reflexivity. Qed.
Lemma plain_checked w h o : plain_check w h o = true -> exists v, o = Some v /\ let polys := map fast_polygon (iv_iter v) in
  (forall p, In p polys -> plain_fan p /\ Z.of_nat (length p) <= 2 ^ 15) /\ pixels_covered polys = w * h /\ length polys = 5%nat.
Proof.
  destruct o as [v|]; [|discriminate]. cbn [plain_check]. intros H. exists v. split; [reflexivity|]. cbv zeta in *. rewrite !andb_true_iff in H. destruct H as [[F C] L]. apply Z.eqb_eq in C. apply Nat.eqb_eq in L.
  split; [|split; assumption]. intros p Ip. rewrite forallb_forall in F. specialize (F p Ip). apply andb_prop in F as [F B]. apply Z.leb_le in B. split; [|lia].
  intros t It. rewrite forallb_forall in F. specialize (F t It). apply negb_true_iff, Z.eqb_neq in F. exact F.
Qed.
Lemma diffs_exist im fi bs fuel ls : good_image im -> i_w im <= 32767 -> i_h im <= 32767 -> 1 <= bs <= 16 -> bs <= i_w im + 1 -> bs <= i_h im + 1 -> new_fimg fuel im bs = Some fi -> 2 ^ 56 <= Z.of_nat fuel ->
  (forall l, In l ls -> image_polygon im (fast_polygon l) /\ Z.of_nat (length (fast_polygon l)) <= 2 ^ 15 /\ plain_fan (fast_polygon l)) ->
  forall x, exists y, foldM (fun d l => option_map (fadd d) (poly_diff fi (fast_polygon l))) ls x = Some y.
Proof.
  intros G W H B1 B2 B3 E F. induction ls as [|l ls IH]; intros HL x; [exists x; reflexivity|]. destruct (HL l (or_introl eq_refl)) as (P1 & P2 & P3).
  cbn [foldM]. rewrite (proj2 (C66_exact_pixels im fi bs fuel (fast_polygon l) G W H B1 B2 B3 E P1 P2 P3) F). cbn [option_map]. apply IH. intros k Hk. apply HL. right. exact Hk.
Qed.
Local Opaque new_voronoi iv_insert.
Lemma on_size fi w h pts v : fi_w fi = w -> fi_h fi = h -> vor_on w h pts = Some v -> next_vor fi slice_sort insertion_sort None None pts [] = Some v.
Proof. intros <- <- E. unfold vor_on in E. unfold next_vor, mut_point. destruct (new_voronoi (fi_w fi) (fi_h fi)); exact E. Qed.
Local Transparent new_voronoi iv_insert.
Lemma five_unit : Forall pt_in_unit five_pts. Proof.
  assert (F : Forall (fun g => length g = length five_pts /\ Forall pt_in_unit g) (repeat five_pts 1)) by (apply pts_ok; vm_compute; reflexivity).
  cbn [repeat] in F. inversion F as [|g gs [_ U] _]. exact U.
Qed.
Example C81_case : exists data fi v f out, to_data stripes = Some data /\ image_function (as_idata data) 5 fi /\ next_vor fi slice_sort insertion_sort None None five_pts [] = Some v /\ plain_pfitness fi v = Some f /\
  let polys := map fast_polygon (iv_iter v) in length polys = 5%nat /\ pixels_covered polys = 10000 /\ polygons_on_image polys (as_idata data) = Some out /\
  let s := polygons_score (as_idata data) (polygons_error (as_idata data) polys (map pd_color out)) in (s - 0.0000013 <= B2R f <= s + 0.000009)%R.
Proof.
  assert (Hf : exists fuel, 2 ^ 56 <= Z.of_nat fuel) by (exists (Z.to_nat (2 ^ 56)); rewrite Z2Nat.id; lia). destruct Hf as (fuel & Hf).
  destruct (default_function fuel stripes stripes_usual Hf) as (data & fi & Ed & _ & Him & Ew & Eh). cbn [g_maxx g_maxy stripes] in Ew, Eh. change default_block with 5 in Him.
  destruct (im_size _ _ _ Him) as [Iw Ih]. rewrite Ew in Iw. rewrite Eh in Ih.
  destruct (plain_checked _ _ _ five_plain) as (v & Ev & HP & HC & HN).
  assert (NV : next_vor fi slice_sort insertion_sort None None five_pts [] = Some v) by exact (on_size fi 100 100 five_pts v Ew Eh Ev).
  pose proof (im_usual _ _ _ Him) as Us. pose proof (vor_new fi slice_sort insertion_sort 5 Us ltac:(lia) None five_pts [] v (conj eq_refl five_unit) NV) as V. pose proof (vor_framed fi slice_sort slice_sort_ok Us five_pts v V) as Fr.
  pose proof Him as (G & _ & B1 & B2 & B3 & fu & Fu & E).
  assert (PE : exists f, plain_pfitness fi v = Some f).
  { unfold plain_pfitness, plain_psum. destruct (diffs_exist (as_idata data) fi 5 fu (iv_iter v) G ltac:(lia) ltac:(lia) B1 B2 B3 E Fu) with (x := f0) as (y & Ey).
    - intros l Il. destruct (HP _ (in_map fast_polygon _ _ Il)) as [P1 P2]. split; [|split; assumption]. apply (framed_polygon (as_idata data) fi v l); try lia; assumption.
    - rewrite Ey. eexists. reflexivity. }
  destruct PE as (f & Ef). destruct (C81_fitness stripes data (as_idata data) 5 fi v f stripes_conforming Ed eq_refl Him Fr Ef HP) as (out & Eo & S).
  - rewrite HC, <- Iw, <- Ih. lia.
  - rewrite HN, <- Iw, <- Ih. lia.
  - exists data, fi, v, f, out. split; [exact Ed|]. split; [exact Him|]. split; [exact NV|]. split; [exact Ef|]. cbv zeta. split; [exact HN|]. split; [rewrite HC; reflexivity|]. split; [exact Eo|exact S].
Qed.
