(** Slots, free list and grid of the triangulation stay consistent. *)
From Coq Require Import ZArith List Bool Permutation Lia.
From Verif Require Import GoNum M_Norm M_Slice M_Geom M_Image M_Raster M_Delaunay S_Delaunay L_Raster1 L_PMap L_GMap.
Import ListNotations.
Open Scope Z_scope.

(** The triangles in use. *)
Definition live (tris : list dtri) : list dtri := filter (fun t => negb (is_freed t)) tris.

(** Shape of the grid: K x K cells. *)
Definition grid_shape (K : Z) (g : grid) : Prop :=
  0 <= K /\ g_cols g = K /\ g_rows g = K /\ Z.of_nat (length (g_cells g)) = K /\
  forall col, In col (g_cells g) -> Z.of_nat (length col) = K.

(** Same cell sizes. *)
Definition same_geo (g g' : grid) : Prop :=
  g_cols g' = g_cols g /\ g_rows g' = g_rows g /\ g_rowpx g' = g_rowpx g /\ g_colpx g' = g_colpx g.

Record slots_ok (K : Z) (tris : list dtri) (g : grid) (free : list Z) : Prop := {
  s_shape : grid_shape K g;
  s_size : Z.of_nat (length tris) <= 65536;
  s_free_nodup : NoDup free;
  s_free : forall i, In i free <-> exists t, znth tris i = Some t /\ is_freed t = true;
  s_cell_nodup : forall x y l, cell g x y = Some l -> NoDup l;
  s_cell : forall x y l i, cell g x y = Some l ->
     (In i l <-> exists t, znth tris i = Some t /\ is_freed t = false /\ In (x, y) (box_cells g (d_circ t))) }.

(* ---------------------------------------------------------------- *)
(** * Cells *)
Lemma cell_Some K g x y : grid_shape K g -> 0 <= x < K -> 0 <= y < K -> exists l, cell g x y = Some l.
Proof.
  intros (K0 & C & R & L & F) Hx Hy. unfold cell. destruct (znth_lt (g_cells g) x) as (col & E); [lia|]. rewrite E.
  apply znth_lt. rewrite (F col (znth_In _ _ _ E)). lia.
Qed.
Lemma cell_range K g x y l : grid_shape K g -> cell g x y = Some l -> 0 <= x < K /\ 0 <= y < K.
Proof.
  intros (K0 & C & R & L & F) E. unfold cell in E. destruct (znth (g_cells g) x) as [col|] eqn:Ec; [|discriminate].
  pose proof (F col (znth_In _ _ _ Ec)). apply znth_Some in Ec. apply znth_Some in E. lia.
Qed.

Lemma set_cell_spec K g x y v : grid_shape K g -> 0 <= x < K -> 0 <= y < K ->
  exists g', set_cell g x y v = Some g' /\ grid_shape K g' /\ same_geo g g' /\
    forall x' y', cell g' x' y' = if (x =? x') && (y =? y') then Some v else cell g x' y'.
Proof.
  intros (K0 & C & R & L & F) Hx Hy. unfold set_cell. destruct (znth_lt (g_cells g) x) as (col & E); [lia|]. rewrite E.
  pose proof (F col (znth_In _ _ _ E)) as Lc.
  destruct (zset_spec col y v) as (col' & E1 & L1 & Q1); [lia|]. rewrite E1.
  destruct (zset_spec (g_cells g) x col') as (cs & E2 & L2 & Q2); [lia|]. rewrite E2.
  eexists. split; [reflexivity|]. split; [|split].
  - split; [exact K0|]. cbn. split; [exact C|]. split; [exact R|]. split; [lia|]. intros c I.
    apply In_nth_error in I. destruct I as (n & I). rewrite <- znth_nat, Q2 in I.
    destruct (x =? Z.of_nat n); [injection I as <-; lia|]. apply F. eapply znth_In, I.
  - split; cbn; auto.
  - intros x' y'. unfold cell. cbn [g_cells]. rewrite Q2. destruct (Z.eqb_spec x x') as [<-|N]; cbn [andb]; [|reflexivity].
    rewrite Q1. rewrite E. destruct (y =? y'); reflexivity.
Qed.

Lemma same_geo_refl g : same_geo g g. Proof. repeat split. Qed.
Lemma same_geo_trans a b c : same_geo a b -> same_geo b c -> same_geo a c.
Proof. intros (A & B & C & D) (E & F & G & H). repeat split; congruence. Qed.
Lemma box_same g g' c : same_geo g g' -> box_cells g' c = box_cells g c.
Proof. intros (A & B & C & D). unfold box_cells, circle_box. rewrite A, B, C, D. reflexivity. Qed.
Lemma point_cell_same g g' p : same_geo g g' -> point_cell g' p = point_cell g p.
Proof. intros (A & B & C & D). unfold point_cell. rewrite A, B, C, D. reflexivity. Qed.

Lemma box_range K g c x y : grid_shape K g -> In (x, y) (box_cells g c) -> 0 <= x < K /\ 0 <= y < K.
Proof.
  intros (K0 & C & R & L & F) I. unfold box_cells in I.
  destruct (circle_box g c) as [[[x0 y0] x1] y1] eqn:E. unfold circle_box in E. injection E as <- <- <- <-.
  apply in_flat_map in I. destruct I as (a & Ia & I). apply in_map_iff in I. destruct I as (b & [= <- <-] & Ib).
  apply zfor_In in Ia. apply zfor_In in Ib. rewrite C, R in *.
  repeat match goal with H : context [if ?c then _ else _] |- _ => destruct c eqn:? end; try lia;
  repeat match goal with H : (_ <? _) = false |- _ => apply Z.ltb_ge in H | H : (_ >? _) = false |- _ => rewrite Z.gtb_ltb in H; apply Z.ltb_ge in H end; lia.
Qed.

Lemma NoDup_product {A B} (la : list A) (lb : list B) : NoDup la -> NoDup lb -> NoDup (flat_map (fun x => map (fun y => (x, y)) lb) la).
Proof.
  intros Ha Hb. induction Ha as [|x la N Ha IH]; cbn; [constructor|]. apply NoDup_app_iff_local.
  - apply FinFun.Injective_map_NoDup; [|exact Hb]. intros y z [=]. assumption.
  - exact IH.
  - intros [u v] I J. apply in_map_iff in I. destruct I as (y & [= <- <-] & _).
    apply in_flat_map in J. destruct J as (x2 & I2 & J). apply in_map_iff in J. destruct J as (z & [= -> _] & _). contradiction.
Qed.
Lemma box_NoDup g c : NoDup (box_cells g c).
Proof. unfold box_cells. destruct (circle_box g c) as [[[x0 y0] x1] y1]. apply NoDup_product; apply zfor_NoDup. Qed.

(** Applying [f] to a duplicate-free list of cells. *)
Lemma on_cells K f cells : forall g, grid_shape K g -> NoDup cells -> (forall x y, In (x, y) cells -> 0 <= x < K /\ 0 <= y < K) ->
  exists g', foldM (on_cell f) cells g = Some g' /\ grid_shape K g' /\ same_geo g g' /\
    forall x y, (In (x, y) cells -> cell g' x y = option_map f (cell g x y)) /\ (~ In (x, y) cells -> cell g' x y = cell g x y).
Proof.
  induction cells as [|[x y] cells IH]; intros g S ND R; cbn [foldM].
  - exists g. split; [reflexivity|]. split; [exact S|]. split; [apply same_geo_refl|]. intros; split; [intros []|reflexivity].
  - inversion ND; subst. destruct (R x y (or_introl eq_refl)) as [Rx Ry]. destruct (cell_Some K g x y S Rx Ry) as (l & E).
    destruct (set_cell_spec K g x y (f l) S Rx Ry) as (g1 & Eg1 & S1 & G1 & Q1).
    assert (X : on_cell f g (x, y) = Some g1) by (unfold on_cell; cbn [fst snd]; rewrite E; exact Eg1). rewrite X.
    destruct (IH g1 S1 H2 (fun a b I => R a b (or_intror I))) as (g2 & -> & S2 & G2 & Q2).
    exists g2. split; [reflexivity|]. split; [exact S2|]. split; [eapply same_geo_trans; eauto|].
    intros a b. specialize (Q2 a b). specialize (Q1 a b). destruct Q2 as [QI QN]. split.
    + intros [[= <- <-]|I].
      * rewrite QN by assumption. rewrite Q1, !Z.eqb_refl. cbn. now rewrite E.
      * rewrite QI by exact I. rewrite Q1. destruct (Z.eqb_spec x a), (Z.eqb_spec y b); cbn; try reflexivity. subst. contradiction.
    + intros N. rewrite QN by (intros I; apply N; right; exact I). rewrite Q1.
      destruct (Z.eqb_spec x a), (Z.eqb_spec y b); cbn; try reflexivity. subst. exfalso. apply N. left; reflexivity.
Qed.

Lemma In_dec_cell (xy : Z * Z) l : {In xy l} + {~ In xy l}.
Proof. apply in_dec. intros [a b] [c d]. destruct (Z.eq_dec a c), (Z.eq_dec b d); [left; congruence|right; congruence|right; congruence|right; congruence]. Qed.

Lemma delete_index_spec i l : NoDup l -> NoDup (delete_index i l) /\ (forall j, In j (delete_index i l) <-> In j l /\ j <> i) /\
  (In i l -> S (length (delete_index i l)) = length l).
Proof.
  intros ND. unfold delete_index. destruct (find_index (Z.eqb i) l) as [k|] eqn:E.
  - apply find_index_Some in E. destruct E as (a & En & Ea & _). apply Z.eqb_eq in Ea. subst a.
    pose proof (swap_delete_perm _ _ _ En) as P. assert (ND2 : NoDup (i :: swap_delete k l)) by (eapply Permutation_NoDup; [apply Permutation_sym, P|exact ND]).
    inversion ND2; subst. split; [assumption|]. split.
    + intros j. split.
      * intros I. split; [eapply Permutation_in; [exact P|right; exact I]|]. intros ->. contradiction.
      * intros [I N]. eapply Permutation_in in I; [|apply Permutation_sym, P]. destruct I; [congruence|assumption].
    + intros _. apply Permutation_length in P. cbn in P. lia.
  - pose proof (find_index_None _ _ E) as X. split; [exact ND|].
    assert (N : ~ In i l) by (intros I; apply X in I; rewrite Z.eqb_refl in I; discriminate). split; [|contradiction].
    intros j. split; [intros I; split; [exact I|]; intros ->; contradiction|tauto].
Qed.

(* ---------------------------------------------------------------- *)
(** * live *)
Lemma live_cons t l : live (t :: l) = if is_freed t then live l else t :: live l.
Proof. unfold live. cbn. destruct (is_freed t); reflexivity. Qed.
Lemma live_app a b : live (a ++ b) = live a ++ live b.
Proof. apply filter_app. Qed.
Lemma live_In t tris : In t (live tris) <-> In t tris /\ is_freed t = false.
Proof. unfold live. rewrite filter_In. destruct (is_freed t); cbn; intuition congruence. Qed.
Lemma live_znth t tris : In t (live tris) -> exists i, znth tris i = Some t /\ is_freed t = false.
Proof. intros I. apply live_In in I. destruct I as [I F]. apply In_nth_error in I. destruct I as (n & E). exists (Z.of_nat n). rewrite znth_nat. auto. Qed.

Lemma zset_live_add tris tris' i old t : znth tris i = Some old -> is_freed old = true -> is_freed t = false -> zset tris i t = Some tris' ->
  Permutation (live tris') (t :: live tris).
Proof.
  intros E F N Z. unfold zset in Z. rewrite E in Z. injection Z as <-. apply znth_Some in E. destruct E as [_ E].
  destruct (set_nth_split tris _ old t E) as (b1 & b2 & -> & _ & ->). rewrite !live_app, !live_cons, F, N.
  apply Permutation_sym, Permutation_middle.
Qed.
Lemma zset_live_free tris tris' i old t : znth tris i = Some old -> is_freed old = false -> is_freed t = true -> zset tris i t = Some tris' ->
  Permutation (live tris) (old :: live tris').
Proof.
  intros E F N Z. unfold zset in Z. rewrite E in Z. injection Z as <-. apply znth_Some in E. destruct E as [_ E].
  destruct (set_nth_split tris _ old t E) as (b1 & b2 & -> & _ & ->). rewrite !live_app, !live_cons, F, N.
  apply Permutation_sym, Permutation_middle.
Qed.

(* ---------------------------------------------------------------- *)
(** * addTriangle *)
Lemma znth_app_lt {A} (l : list A) a i : znth (l ++ [a]) i = if i =? Z.of_nat (length l) then Some a else znth l i.
Proof.
  destruct (Z.eqb_spec i (Z.of_nat (length l))) as [->|N].
  - rewrite znth_nat. rewrite nth_error_app2, Nat.sub_diag by lia. reflexivity.
  - unfold znth. destruct (Z.ltb_spec i 0); [reflexivity|]. destruct (Z_lt_le_dec i (Z.of_nat (length l))).
    + apply nth_error_app1. lia.
    + transitivity (@None A); [|symmetry]; apply nth_error_None; rewrite ?app_length; cbn; lia.
Qed.

Lemma add_triangle_ok K tris g free t : slots_ok K tris g free -> is_freed t = false ->
  (free = [] -> Z.of_nat (length tris) < 65536) ->
  exists tris' g' free', add_triangle tris g free t = Some (tris', g', free') /\ slots_ok K tris' g' free' /\ same_geo g g' /\
    Permutation (live tris') (t :: live tris) /\ (length tris' <= S (length tris))%nat.
Proof.
  intros S N HL. unfold add_triangle.
  destruct (on_cells K (fun l => l ++ []) [] g (s_shape _ _ _ _ S) (NoDup_nil _)) as (gx & _); [intros ? ? []|]. clear gx.
  destruct free as [|index free'].
  - specialize (HL eq_refl). rewrite u16_id by lia. set (index := Z.of_nat (length tris)).
    destruct (on_cells K (fun l => l ++ [index]) (box_cells g (d_circ t)) g (s_shape _ _ _ _ S) (box_NoDup _ _)) as (g' & E & Sh & G & Q).
    { intros x y I. eapply box_range; [apply S|exact I]. }
    unfold grid_add. rewrite E. do 3 eexists. split; [reflexivity|]. split; [|split; [exact G|split]].
    + split.
      * exact Sh.
      * rewrite app_length. cbn. lia.
      * constructor.
      * intros i. rewrite znth_app_lt. pose proof (s_free _ _ _ _ S i) as F. split; [intros []|].
        intros (t0 & E0 & F0). destruct (i =? Z.of_nat (length tris)); [congruence|]. apply F. eauto.
      * intros x y l El. destruct (Q x y) as [QI QN]. destruct (In_dec_cell (x, y) (box_cells g (d_circ t))) as [I|NI].
        -- rewrite QI in El by exact I. destruct (cell g x y) as [l0|] eqn:E0; [|discriminate]. injection El as <-.
           apply NoDup_app_iff_local; [eapply S, E0|constructor; [intros []|constructor]|].
           intros a Ia [<-|[]]. apply (s_cell _ _ _ _ S x y l0 index E0) in Ia. destruct Ia as (t0 & Et & _). apply znth_Some in Et. unfold index in *. lia.
        -- rewrite QN in El by exact NI. eapply S, El.
      * intros x y l i El. rewrite znth_app_lt. fold index. destruct (Q x y) as [QI QN].
        assert (BS : forall c, box_cells g' c = box_cells g c) by (intros; now apply box_same).
        destruct (In_dec_cell (x, y) (box_cells g (d_circ t))) as [I|NI].
        -- rewrite QI in El by exact I. destruct (cell g x y) as [l0|] eqn:E0; [|discriminate]. injection El as <-.
           pose proof (s_cell _ _ _ _ S x y l0 i E0) as C. rewrite in_app_iff. cbn [In]. split.
           ++ intros [Ia|[<-|[]]].
              ** apply C in Ia. destruct Ia as (t0 & Et & Ef & Eb). exists t0. rewrite BS. destruct (Z.eqb_spec i index) as [->|]; [|auto].
                 apply znth_Some in Et. unfold index in *. lia.
              ** exists t. rewrite Z.eqb_refl, BS. auto.
           ++ intros (t0 & Et & Ef & Eb). rewrite BS in Eb. destruct (Z.eqb_spec i index) as [->|]; [auto|]. left. apply C. eauto.
        -- rewrite QN in El by exact NI. pose proof (s_cell _ _ _ _ S x y l i El) as C. rewrite C. split.
           ++ intros (t0 & Et & Ef & Eb). exists t0. rewrite BS. destruct (Z.eqb_spec i index) as [->|]; [|auto].
              apply znth_Some in Et. unfold index in *. lia.
           ++ intros (t0 & Et & Ef & Eb). rewrite BS in Eb. destruct (Z.eqb_spec i index) as [->|]; [|eauto]. injection Et as <-. contradiction.
    + rewrite live_app. unfold live at 2. cbn. rewrite N. cbn. apply Permutation_sym, Permutation_cons_append.
    + rewrite app_length. cbn. lia.
  - clear HL. destruct (proj1 (s_free _ _ _ _ S index) (or_introl eq_refl)) as (old & Eo & Fo).
    destruct (zset_spec tris index t) as (tris' & Ez & Lz & Qz); [apply znth_Some in Eo; tauto|]. rewrite Ez.
    destruct (on_cells K (fun l => l ++ [index]) (box_cells g (d_circ t)) g (s_shape _ _ _ _ S) (box_NoDup _ _)) as (g' & E & Sh & G & Q).
    { intros x y I. eapply box_range; [apply S|exact I]. }
    unfold grid_add. rewrite E. do 3 eexists. split; [reflexivity|].
    pose proof (s_free_nodup _ _ _ _ S) as NDf. inversion NDf as [|? ? NIf NDf']; subst.
    split; [|split; [exact G|split; [eapply zset_live_add; eauto|lia]]].
    split.
    + exact Sh.
    + rewrite Lz. apply S.
    + exact NDf'.
    + intros i. rewrite Qz. pose proof (s_free _ _ _ _ S i) as F. destruct (Z.eqb_spec index i) as [<-|Ni].
      * split; [contradiction|]. intros (t0 & [= <-] & X). congruence.
      * rewrite <- F. cbn. split; [auto|]. intros [->|]; [congruence|assumption].
    + intros x y l El. destruct (Q x y) as [QI QN]. destruct (In_dec_cell (x, y) (box_cells g (d_circ t))) as [I|NI].
      * rewrite QI in El by exact I. destruct (cell g x y) as [l0|] eqn:E0; [|discriminate]. injection El as <-.
        apply NoDup_app_iff_local; [eapply S, E0|constructor; [intros []|constructor]|].
        intros a Ia [<-|[]]. apply (s_cell _ _ _ _ S x y l0 index E0) in Ia. destruct Ia as (t0 & Et & Ef & _). congruence.
      * rewrite QN in El by exact NI. eapply S, El.
    + intros x y l i El. rewrite Qz. destruct (Q x y) as [QI QN].
      assert (BS : forall c, box_cells g' c = box_cells g c) by (intros; now apply box_same).
      destruct (In_dec_cell (x, y) (box_cells g (d_circ t))) as [I|NI].
      * rewrite QI in El by exact I. destruct (cell g x y) as [l0|] eqn:E0; [|discriminate]. injection El as <-.
        pose proof (s_cell _ _ _ _ S x y l0 i E0) as C. rewrite in_app_iff. cbn [In]. split.
        -- intros [Ia|[<-|[]]].
           ++ apply C in Ia. destruct Ia as (t0 & Et & Ef & Eb). exists t0. rewrite BS. destruct (Z.eqb_spec index i) as [<-|]; [congruence|auto].
           ++ exists t. rewrite Z.eqb_refl, BS. auto.
        -- intros (t0 & Et & Ef & Eb). rewrite BS in Eb. destruct (Z.eqb_spec index i) as [->|]; [auto|]. left. apply C. eauto.
      * rewrite QN in El by exact NI. pose proof (s_cell _ _ _ _ S x y l i El) as C. rewrite C. split.
        -- intros (t0 & Et & Ef & Eb). exists t0. rewrite BS. destruct (Z.eqb_spec index i) as [<-|]; [congruence|auto].
        -- intros (t0 & Et & Ef & Eb). rewrite BS in Eb. destruct (Z.eqb_spec index i) as [->|]; [|eauto]. injection Et as <-. contradiction.
Qed.

(* ---------------------------------------------------------------- *)
(** * Freeing one triangle: mark it and remove it from the grid *)
Lemma free_triangle_ok K tris g free i tri : slots_ok K tris g free -> znth tris i = Some tri -> is_freed tri = false ->
  exists tris' g', mark_free tris free i = Some (tris', i :: free) /\ grid_remove g tri i = Some g' /\
    slots_ok K tris' g' (i :: free) /\ same_geo g g' /\ Permutation (live tris) (tri :: live tris') /\ length tris' = length tris /\
    (forall j, j <> i -> znth tris' j = znth tris j) /\
    (forall x y l, cell g x y = Some l -> cell g' x y = Some (if In_dec_cell (x, y) (box_cells g (d_circ tri)) then delete_index i l else l)).
Proof.
  intros S E N. unfold mark_free. rewrite E. set (dead := DT _ _ _ _).
  assert (FD : is_freed dead = true) by reflexivity.
  destruct (zset_spec tris i dead) as (tris' & Ez & Lz & Qz); [apply znth_Some in E; tauto|]. rewrite Ez. cbn [option_map].
  destruct (on_cells K (delete_index i) (box_cells g (d_circ tri)) g (s_shape _ _ _ _ S) (box_NoDup _ _)) as (g' & Eg & Sh & G & Q).
  { intros x y I. eapply box_range; [apply S|exact I]. }
  exists tris', g'. split; [reflexivity|]. split; [exact Eg|].
  assert (BS : forall c, box_cells g' c = box_cells g c) by (intros; now apply box_same).
  split; [|split; [exact G|split; [eapply zset_live_free; eauto|split; [exact Lz|split]]]].
  - split.
    + exact Sh.
    + rewrite Lz. apply S.
    + constructor; [|apply S]. intros I. apply S in I. destruct I as (t0 & Et & Ef). congruence.
    + intros j. rewrite Qz. cbn [In]. destruct (Z.eqb_spec i j) as [->|Nj].
      * split; [intros _; exists dead; auto|auto].
      * rewrite (s_free _ _ _ _ S j). split; [intros [?|?]; [congruence|assumption]|auto].
    + intros x y l El. destruct (Q x y) as [QI QN]. destruct (In_dec_cell (x, y) (box_cells g (d_circ tri))) as [I|NI].
      * rewrite QI in El by exact I. destruct (cell g x y) as [l0|] eqn:E0; [|discriminate]. injection El as <-.
        apply delete_index_spec. eapply S, E0.
      * rewrite QN in El by exact NI. eapply S, El.
    + intros x y l j El. rewrite Qz. destruct (Q x y) as [QI QN]. destruct (In_dec_cell (x, y) (box_cells g (d_circ tri))) as [I|NI].
      * rewrite QI in El by exact I. destruct (cell g x y) as [l0|] eqn:E0; [|discriminate]. injection El as <-.
        destruct (delete_index_spec i l0 (s_cell_nodup _ _ _ _ S _ _ _ E0)) as (_ & D & _). rewrite D, (s_cell _ _ _ _ S x y l0 j E0).
        destruct (Z.eqb_spec i j) as [->|Nj].
        -- split; [intros [_ ?]; congruence|]. intros (t0 & [= <-] & X & _). congruence.
        -- split.
           ++ intros [(t0 & A & B & C) _]. exists t0. rewrite BS. auto.
           ++ intros (t0 & A & B & C). rewrite BS in C. split; [eauto|congruence].
      * rewrite QN in El by exact NI. rewrite (s_cell _ _ _ _ S x y l j El). destruct (Z.eqb_spec i j) as [->|Nj].
        -- split; [|intros (t0 & [= <-] & X & _); congruence]. intros (t0 & A & B & C). rewrite E in A. injection A as <-. contradiction.
        -- split; intros (t0 & A & B & C); exists t0; rewrite BS in *; auto.
  - intros j Nj. rewrite Qz. destruct (Z.eqb_spec i j); [congruence|reflexivity].
  - intros x y l El. destruct (Q x y) as [QI QN]. destruct (In_dec_cell (x, y) (box_cells g (d_circ tri))) as [I|NI].
    + rewrite QI, El by exact I. reflexivity.
    + rewrite QN by exact NI. exact El.
Qed.
