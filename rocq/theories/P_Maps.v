(** Properties C39 and C40: the point map and the polygon map. *)
From Coq Require Import ZArith List Bool Permutation Lia.
From Verif Require Import GoNum M_Norm M_Geom M_Image M_Delaunay S_Delaunay L_PMap L_GMap.
Import ListNotations.
Open Scope Z_scope.

(** The operations of the point map. *)
Definition pm_step (pm : pmap) (o : mop) : option (pmap * Z) :=
  match o with MAdd p => add_point pm p | MRemove p => remove_point pm p end.

(** Points whose coordinates fit int16 and whose hash is not negative: all points
    with coordinates at least 0, and a few more. *)
Definition good_point (p : point) : Prop :=
  - 2 ^ 15 <= px p < 2 ^ 15 /\ - 2 ^ 15 <= py p < 2 ^ 15 /\ 0 <= (53 + px p) * 53 + py p.

Lemma run_refines ops : forall pm l, pm_ok pm l -> Forall (fun o => hashable (mop_point o)) ops ->
  Z.of_nat (length l) + Z.of_nat (length ops) < 65536 ->
  match run mstep l ops with
  | None => run pm_step pm ops = None
  | Some (l', rs) => exists pm', run pm_step pm ops = Some (pm', rs) /\ pm_ok pm' l'
  end.
Proof.
  assert (ML : forall (l : list point) p, mult l p <= Z.of_nat (length l)).
  { intros l p. unfold mult. pose proof (count_occ_bound point_eq_dec p l). lia. }
  induction ops as [|o ops IH]; intros pm l O H S; cbn [run].
  - eauto.
  - inversion H as [|? ? Ho Hs]; subst. cbn [length] in S. destruct o as [p|p]; cbn [mstep pm_step mop_point] in *.
    + destruct (add_point_ok pm l p O Ho) as (pm' & -> & _ & O'); [pose proof (ML l p); lia|].
      specialize (IH pm' (p :: l) O' Hs). cbn [length] in IH. specialize (IH ltac:(lia)).
      destruct (run mstep (p :: l) ops) as [[l2 rs]|]; cbn.
      * destruct IH as (pm2 & -> & O2). cbn. eauto.
      * rewrite IH. reflexivity.
    + pose proof (remove_point_ok pm l p O Ho) as R. destruct (take_out p l) as [l1|] eqn:T; cbn.
      * destruct R as (pm' & -> & _ & O'). apply take_out_spec in T. apply Permutation_length in T. cbn in T.
        specialize (IH pm' l1 O' Hs ltac:(lia)). destruct (run mstep l1 ops) as [[l2 rs]|]; cbn.
        -- destruct IH as (pm2 & -> & O2). cbn. eauto.
        -- rewrite IH. reflexivity.
      * rewrite R. reflexivity.
Qed.

(** C39: for every table size and every history of less than 65536 operations,
    the point map and the multiset agree on every returned value and on panics, and
    afterwards on CopiesOf, NumPoints and IterPoints. *)
Theorem C39_point_map : forall size ops, 0 < size -> Forall (fun o => good_point (mop_point o)) ops ->
  Z.of_nat (length ops) < 65536 ->
  exists pm0, new_point_map size = Some pm0 /\
  match run mstep [] ops with
  | None => run pm_step pm0 ops = None
  | Some (l, rs) => exists pm, run pm_step pm0 ops = Some (pm, rs) /\
      (forall p, good_point p -> copies_of pm p = Some (mult l p)) /\
      pm_num_points pm = Z.of_nat (length l) /\
      NoDup (pm_iter pm) /\ (forall p, In p (pm_iter pm) <-> In p l)
  end.
Proof.
  intros size ops Hs H L. destruct (new_point_map_ok size Hs) as (pm0 & E & _ & O). exists pm0. split; [exact E|].
  assert (G : forall p, good_point p -> hashable p) by (intros p (A & B & C); split; [split; assumption|exact C]).
  pose proof (run_refines ops pm0 [] O (Forall_impl _ (fun o => G (mop_point o)) H) ltac:(cbn; lia)) as R.
  destruct (run mstep [] ops) as [[l rs]|]; [|exact R]. destruct R as (pm & Er & O'). exists pm.
  split; [exact Er|]. split; [intros p Hp; apply copies_of_ok; auto|]. split; [now apply pm_num_points_ok|].
  split; [eapply pm_iter_NoDup, O'|]. intros p. now apply pm_iter_In.
Qed.
Print Assumptions C39_point_map.
Example C39_case : run mstep [] [MAdd (Pt 1 2); MAdd (Pt 0 55); MAdd (Pt 1 2); MRemove (Pt 0 55); MRemove (Pt 1 2)]
  = Some ([Pt 1 2], [1; 1; 2; 0; 1]) /\ run mstep [] [MAdd (Pt 1 2); MRemove (Pt 2 1)] = None /\
  point_hash (Pt 1 2) mod 1 = point_hash (Pt 0 55) mod 1.
Proof. vm_compute. auto. Qed.

(** C39, limit: with 65536 copies the 16-bit counter wraps to 0. *)
Theorem C39_counter_wraps : forall c, add_point [[PE 1 2 c]] (Pt 1 2) = Some ([[PE 1 2 ((c + 1) mod 65536)]], (c + 1) mod 65536).
Proof. reflexivity. Qed.
Print Assumptions C39_counter_wraps.

(** C40: the polygon map is a multiset of entries.  [gm_ok] (each entry is in the
    bucket of its point) holds initially and is kept. *)
Theorem C40_polygon_map :
  (forall size, 0 < size -> exists gm, new_polygon_map size = Some gm /\ gm_ok gm /\ concat gm = []) /\
  (forall gm p poly, gm_ok gm -> good_point p ->
     exists gm', add_polygon gm p poly = Some gm' /\ gm_ok gm' /\ Permutation (concat gm') ((p, poly) :: concat gm)) /\
  (forall gm p, gm_ok gm -> good_point p ->
     match remove_polygon gm p with
     | None => forall e, In e (concat gm) -> fst e <> p
     | Some gm' => gm_ok gm' /\ exists poly, Permutation ((p, poly) :: concat gm') (concat gm)
     end) /\
  (forall gm, gm_iter gm = map snd (concat gm)).
Proof.
  assert (G : forall p, good_point p -> hashable p) by (intros p (A & B & C); split; [split; assumption|exact C]).
  split; [|split; [|split]].
  - intros size Hs. destruct (new_gm_ok size Hs) as (gm & A & B & C & _). eauto.
  - intros gm p poly O Hp. destruct (add_polygon_ok gm p poly O (G p Hp)) as (gm' & A & B & _ & C). eauto.
  - intros gm p O Hp. pose proof (remove_polygon_ok gm p O (G p Hp)) as R. destruct (remove_polygon gm p); [|exact R]. tauto.
  - reflexivity.
Qed.
Print Assumptions C40_polygon_map.
Example C40_case : exists g1 g2, add_polygon [[]; []] (Pt 1 2) [] = Some g1 /\ add_polygon g1 (Pt 3 4) [NP f0 f1] = Some g2 /\
  option_map (@concat _) (remove_polygon g2 (Pt 1 2)) = Some [(Pt 3 4, [NP f0 f1])] /\ remove_polygon g1 (Pt 3 4) = None.
Proof. do 2 eexists. split; [reflexivity|]. split; [reflexivity|]. split; reflexivity. Qed.
