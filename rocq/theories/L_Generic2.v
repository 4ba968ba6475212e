(** A polygon function on its own always returns its first fitness. *)
From Coq Require Import ZArith List Bool Arith Lia Permutation.
From Flocq Require Import IEEE754.BinarySingleNaN.
From Verif Require Import GoNum M_Norm S_Norm M_Slice M_Geom M_Delaunay S_Delaunay M_Algo S_Algo M_Fitness S_Fitness M_Voronoi S_Voronoi M_Polygons S_Polygons M_Generic S_Generic
  L_Hold L_Poly L_VHold P_Remove P_PolyRun.
Import ListNotations.

Definition poly_stuck (im : fimg) (a : pfun) (f : f64) : Prop :=
  exists v next, a = PF (Some v) None (QOwn next) /\ small_polys v /\ plain_pfitness im v = Some f /\ forall e, In e next -> pvalid im e.
Lemma poly_alone_new im srt hsrt l pts muts a f : sorter_ok srt -> usual_size (fi_w im) (fi_h im) -> (Z.of_nat l <= 32765)%Z -> okp l pts ->
  poly_alone im srt hsrt new_pfun pts muts = Some (a, f) -> poly_stuck im a f.
Proof.
  intros SO Hs Hl Hg. unfold poly_alone, calc_pfun, new_pfun. cbn [pf_tri pf_cache pcache_view]. destruct (next_vor im srt hsrt None None pts muts) as [v|] eqn:En; [|discriminate].
  pose proof (vor_fine im srt 1%nat l SO Hs ltac:(discriminate) pts v Hg (vor_new im srt hsrt l Hs Hl None pts muts v Hg En)) as Sm.
  pose proof (calc_poly_plain im false [None; None] v) as H. destruct (calc_poly im false [None; None] v) as [[g next]|]; [|discriminate]. intros [= <- <-].
  destruct H as [H1 H2]; [intros e [I|[I|[]]]; discriminate|exact Sm|]. exists v, next. auto.
Qed.
Lemma poly_alone_old im srt hsrt a f pts muts a' f' : poly_stuck im a f -> poly_alone im srt hsrt a pts muts = Some (a', f') -> f' = f /\ poly_stuck im a' f.
Proof.
  intros (v & next & -> & Sm & P & V). unfold poly_alone, calc_pfun. cbn [pf_tri pf_cache pcache_view next_vor].
  pose proof (calc_poly_plain im true (map Some next) v) as H. destruct (calc_poly im true (map Some next) v) as [[g nx]|]; [|discriminate]. intros [= <- <-].
  destruct H as [H1 H2]; [intros e I; apply in_map_iff in I as (x & [= ->] & I); apply V, I|exact Sm|]. rewrite P in H1. injection H1 as <-.
  split; [reflexivity|]. exists v, nx. auto.
Qed.
