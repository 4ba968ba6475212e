(** The loops over one grid cell and the additions, on consistent slots. *)
From Coq Require Import ZArith List Bool Permutation Lia.
From Verif Require Import GoNum M_Norm M_Slice M_Geom M_Image M_Raster M_Delaunay S_Delaunay L_Raster1 L_PMap L_GMap L_Slots.
Import ListNotations.
Open Scope Z_scope.

(** Both removal loops have this form. *)
Fixpoint rm_loop {Acc} (chk : bool) (test : dtri -> bool) (upd : Acc -> dtri -> Acc) (n i : nat) (xy : Z * Z)
    (tris : list dtri) (g : grid) (free : list Z) (acc : Acc) : option (list dtri * grid * list Z * Acc) :=
  match n with
  | O => Some (tris, g, free, acc)
  | S n' =>
      match cell g (fst xy) (snd xy) with
      | None => None
      | Some l =>
          match nth_error l i with
          | None => None
          | Some t =>
              match znth tris t with
              | None => None
              | Some tri =>
                  if chk && is_freed tri then None
                  else if test tri then
                    match mark_free tris free t with
                    | None => None
                    | Some (tris', free') =>
                        match grid_remove g tri t with
                        | None => None
                        | Some g' => rm_loop chk test upd n' i xy tris' g' free' (upd acc tri)
                        end
                    end
                  else rm_loop chk test upd n' (S i) xy tris g free acc
              end
          end
      end
  end.

Lemma circles_rm n : forall i p xy tris g free es,
  remove_circles_loop n i p xy tris g free es = rm_loop true (fun t => contains_point t p) add_tri_edges n i xy tris g free es.
Proof.
  induction n as [|n IH]; intros; [reflexivity|]. cbn [remove_circles_loop rm_loop].
  destruct (cell g (fst xy) (snd xy)) as [l|]; [|reflexivity]. destruct (nth_error l i) as [t|]; [|reflexivity].
  destruct (znth tris t) as [tri|]; [|reflexivity]. cbn [andb]. destruct (is_freed tri); [reflexivity|].
  destruct (contains_point tri p); [|apply IH]. destruct (mark_free tris free t) as [[tris' free']|]; [|reflexivity].
  destruct (grid_remove g tri t); [|reflexivity]. apply IH.
Qed.
Definition hull_add3 (p : point) (hull : list point) (t : dtri) : list point :=
  hull_add p (hull_add p (hull_add p hull (d_a t)) (d_b t)) (d_c t).
Lemma vertex_rm n : forall i p xy tris g free hull,
  remove_vertex_loop n i p xy tris g free hull = rm_loop false (fun t => has_vertex t p) (hull_add3 p) n i xy tris g free hull.
Proof.
  induction n as [|n IH]; intros; [reflexivity|]. cbn [remove_vertex_loop rm_loop].
  destruct (cell g (fst xy) (snd xy)) as [l|]; [|reflexivity]. destruct (nth_error l i) as [t|]; [|reflexivity].
  destruct (znth tris t) as [tri|]; [|reflexivity]. cbn [andb].
  destruct (has_vertex tri p); [|apply IH]. destruct (mark_free tris free t) as [[tris' free']|]; [|reflexivity].
  destruct (grid_remove g tri t); [|reflexivity]. apply IH.
Qed.

(** Deleting position i keeps what is before. *)
Lemma find_index_nodup i l k : NoDup l -> nth_error l k = Some i -> find_index (Z.eqb i) l = Some k.
Proof.
  revert k; induction l as [|a l IH]; intros k ND E; [destruct k; discriminate|]. inversion ND; subst. cbn. destruct k; cbn in E.
  - injection E as ->. rewrite Z.eqb_refl. reflexivity.
  - destruct (Z.eqb_spec i a) as [->|N]; [apply nth_error_In in E; contradiction|]. rewrite (IH k) by assumption. reflexivity.
Qed.
Lemma swap_delete_prefix {A} (l : list A) k j : (j < k)%nat -> (k < length l)%nat -> nth_error (swap_delete k l) j = nth_error l j.
Proof.
  intros H L. assert (N : l <> []) by (destruct l; [cbn in *; lia|discriminate]). destruct (exists_last N) as (m & z & ->).
  rewrite swap_delete_last. rewrite app_length in L. cbn in L. destruct (Nat.ltb_spec k (length m)).
  - rewrite nth_error_set_nth. destruct (Nat.eqb_spec k j); [lia|]. symmetry. apply nth_error_app1. lia.
  - symmetry. apply nth_error_app1. lia.
Qed.
Lemma swap_delete_length {A} (l : list A) k : (k < length l)%nat -> S (length (swap_delete k l)) = length l.
Proof.
  intros L. destruct (nth_error l k) eqn:E; [|apply nth_error_None in E; lia].
  apply swap_delete_perm, Permutation_length in E. exact E.
Qed.

Lemma rm_loop_ok {Acc} K chk test (upd : Acc -> dtri -> Acc) xy n : forall i tris g free acc l,
  slots_ok K tris g free -> cell g (fst xy) (snd xy) = Some l -> length l = (i + n)%nat ->
  (forall j k t, (j < i)%nat -> nth_error l j = Some k -> znth tris k = Some t -> test t = false) ->
  exists tris' g' free' R, rm_loop chk test upd n i xy tris g free acc = Some (tris', g', free', fold_left upd R acc) /\
    slots_ok K tris' g' free' /\ same_geo g g' /\ Permutation (live tris) (R ++ live tris') /\
    (forall t, In t R -> test t = true /\ In xy (box_cells g (d_circ t))) /\
    (forall t, In t (live tris') -> In xy (box_cells g (d_circ t)) -> test t = false) /\
    length tris' = length tris.
Proof.
  induction n as [|n IH]; intros i tris g free acc l S0 EC LL PR.
  - exists tris, g, free, []. cbn [rm_loop fold_left app]. split; [reflexivity|]. split; [exact S0|]. split; [apply same_geo_refl|]. split; [reflexivity|].
    split; [intros t []|]. split; [|reflexivity]. intros t It Ib. apply live_znth in It. destruct It as (k & Ek & Fk).
    assert (Il : In k l) by (apply (s_cell _ _ _ _ S0 (fst xy) (snd xy) l k EC); exists t; destruct xy; auto).
    apply In_nth_error in Il. destruct Il as (j & Ej). eapply PR; [|exact Ej|exact Ek].
    assert (j < length l)%nat by (apply nth_error_Some; congruence). lia.
  - cbn [rm_loop]. rewrite EC. destruct (nth_error l i) as [k|] eqn:Ek; [|apply nth_error_None in Ek; lia].
    assert (Il : In k l) by (eapply nth_error_In; eauto).
    destruct (proj1 (s_cell _ _ _ _ S0 _ _ l k EC) Il) as (t & Et & Ft & Bt). rewrite Et, Ft, andb_false_r.
    replace (fst xy, snd xy) with xy in Bt by (destruct xy; reflexivity).
    destruct (test t) eqn:Tt.
    + destruct (free_triangle_ok K tris g free k t S0 Et Ft) as (tris1 & g1 & -> & -> & S1 & G1 & P1 & L1 & Q1 & C1).
      specialize (C1 _ _ _ EC). replace (fst xy, snd xy) with xy in C1 by (destruct xy; reflexivity).
      destruct (In_dec_cell xy (box_cells g (d_circ t))); [|contradiction].
      assert (DI : delete_index k l = swap_delete i l) by (unfold delete_index; now rewrite (find_index_nodup k l i (s_cell_nodup _ _ _ _ S0 _ _ _ EC) Ek)).
      rewrite DI in C1. assert (Li : (i < length l)%nat) by lia.
      destruct (IH i tris1 g1 (k :: free) (upd acc t) (swap_delete i l) S1 C1) as (tris2 & g2 & free2 & R & E & S2 & G2 & P2 & TR & TL & L2).
      * pose proof (swap_delete_length l i Li). lia.
      * intros j k' t' Hj Ej Et'. rewrite swap_delete_prefix in Ej by lia.
        assert (k' <> k).
        { intros ->. pose proof (s_cell_nodup _ _ _ _ S0 _ _ _ EC) as ND. rewrite NoDup_nth_error in ND. specialize (ND j i). rewrite Ej, Ek in ND.
          enough (j = i) by lia. apply ND; [lia|reflexivity]. }
        rewrite Q1 in Et' by assumption. eapply PR; eauto.
      * exists tris2, g2, free2, (t :: R). split; [exact E|]. split; [exact S2|]. split; [eapply same_geo_trans; eauto|].
        split; [rewrite P1; cbn; constructor; exact P2|].
        split; [intros u [<-|Iu]; [auto|]; destruct (TR u Iu) as [A B]; rewrite (box_same g g1) in B by exact G1; auto|].
        split; [|lia]. intros u Iu Bu. apply TL; [exact Iu|]. now rewrite (box_same g g1).
    + apply (IH (S i) tris g free acc l S0 EC); [lia|]. intros j k' t' Hj Ej Et'.
      destruct (Nat.eq_dec j i) as [->|]; [|eapply PR; eauto; lia]. rewrite Ek in Ej. injection Ej as <-. rewrite Et in Et'. injection Et' as <-. exact Tt.
Qed.

(* ---------------------------------------------------------------- *)
(** * Slots = triangles in use + free slots *)
Lemma zrange_filter {A} (f : A -> bool) (l : list A) :
  length (filter (fun i => match nth_error l i with Some a => f a | None => false end) (seq 0 (length l))) = length (filter f l).
Proof.
  induction l as [|a l IH] using rev_ind; [reflexivity|].
  rewrite app_length. cbn [length]. rewrite Nat.add_1_r, seq_S, !filter_app, !app_length. cbn [filter].
  rewrite Nat.add_0_l, nth_error_app2, Nat.sub_diag by lia. cbn [nth_error].
  replace (filter (fun i => match nth_error (l ++ [a]) i with Some a0 => f a0 | None => false end) (seq 0 (length l)))
    with (filter (fun i => match nth_error l i with Some a0 => f a0 | None => false end) (seq 0 (length l))).
  - rewrite IH. destruct (f a); reflexivity.
  - apply filter_ext_in. intros i Hi. apply in_seq in Hi. rewrite nth_error_app1 by lia. reflexivity.
Qed.

Lemma free_count K tris g free : slots_ok K tris g free -> (length tris = length (live tris) + length free)%nat.
Proof.
  intros S0. assert (P : Permutation free (map Z.of_nat (filter (fun i => match nth_error tris i with Some a => is_freed a | None => false end) (seq 0 (length tris))))).
  { apply NoDup_Permutation.
    - apply S0.
    - apply FinFun.Injective_map_NoDup; [intros x y; apply Nat2Z.inj|]. apply NoDup_filter, seq_NoDup.
    - intros i. rewrite (s_free _ _ _ _ S0 i), in_map_iff. split.
      + intros (t & Et & Ft). pose proof (znth_Some _ _ _ Et) as [Hi En]. exists (Z.to_nat i). split; [lia|]. apply filter_In. split; [apply in_seq; lia|]. now rewrite En.
      + intros (n & <- & I). apply filter_In in I. destruct I as [_ I]. rewrite znth_nat. destruct (nth_error tris n) as [t|]; [|discriminate]. eauto. }
  apply Permutation_length in P. rewrite map_length, zrange_filter in P. rewrite P. unfold live. clear.
  induction tris as [|t l IH]; [reflexivity|]. cbn. destruct (is_freed t); cbn; lia.
Qed.

(** Adding several triangles. *)
Lemma add_list_ok K l : forall tris g free, slots_ok K tris g free -> (forall t, In t l -> is_freed t = false) ->
  Z.of_nat (length (live tris)) + Z.of_nat (length l) <= 65536 ->
  exists tris' g' free', foldM (fun st t => let '(tris, g, free) := st in add_triangle tris g free t) l (tris, g, free) = Some (tris', g', free') /\
    slots_ok K tris' g' free' /\ same_geo g g' /\ Permutation (live tris') (l ++ live tris).
Proof.
  induction l as [|t l IH]; intros tris g free S0 F C; cbn [foldM].
  - exists tris, g, free. split; [reflexivity|]. split; [exact S0|]. split; [apply same_geo_refl|reflexivity].
  - cbn [length] in C. destruct (add_triangle_ok K tris g free t S0 (F t (or_introl eq_refl))) as (tris1 & g1 & free1 & -> & S1 & G1 & P1 & _).
    { intros ->. pose proof (free_count _ _ _ _ S0). cbn [length] in H. lia. }
    destruct (IH tris1 g1 free1 S1) as (tris2 & g2 & free2 & E2 & S2 & G2 & P2).
    + intros u Iu. apply F. right. exact Iu.
    + apply Permutation_length in P1. rewrite P1. cbn [length]. lia.
    + exists tris2, g2, free2. split; [exact E2|]. split; [exact S2|]. split; [eapply same_geo_trans; eauto|].
      rewrite P2, P1. cbn. apply Permutation_sym, Permutation_middle.
Qed.
