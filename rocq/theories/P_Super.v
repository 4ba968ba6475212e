(** C50, C57: the enclosing triangle. *)
From Coq Require Import ZArith List Bool Lia.
From Verif Require Import GoNum M_Norm M_Slice M_Geom M_Image M_Raster M_Delaunay S_Delaunay L_PMap L_Super.
Import ListNotations.
Open Scope Z_scope.

(** Refutations, by computation. *)
Definition px_c_13107 : Z := px (d_c (new_super_triangle 13107 13107)).
Lemma px_c_13107_val : px_c_13107 = -32768. Proof. vm_compute. reflexivity. Qed.

Definition after_insert (w h : Z) (p : point) : option (list (point * point * point)) :=
  match new_delaunay w h with
  | None => None
  | Some d => match insert d p with None => None | Some d' => Some (map (fun t => (d_a t, d_b t, d_c t)) (d_tris d')) end
  end.
Lemma lost_8192 : after_insert 8192 8192 (Pt 8192 8192) = Some [(Pt (-12288) (-4096), Pt 4096 20480, Pt 20480 (-4096))].
Proof. vm_compute. reflexivity. Qed.
Lemma kept_8191 : after_insert 8191 8191 (Pt 8191 8191) =
  Some [(Pt (-12286) (-4095), Pt 4096 20478, Pt 8191 8191); (Pt 4096 20478, Pt 20478 (-4095), Pt 8191 8191); (Pt (-12286) (-4095), Pt 20478 (-4095), Pt 8191 8191)].
Proof. vm_compute. reflexivity. Qed.
Lemma new_1x1 : exists d, new_delaunay 1 1 = Some d.
Proof. destruct (new_delaunay 1 1) as [d|] eqn:E; [eauto|]. assert (X : match new_delaunay 1 1 with None => false | _ => true end = true) by (vm_compute; reflexivity). rewrite E in X. discriminate. Qed.
Lemma insert_1x1 p : in_image 1 1 p -> match new_delaunay 1 1 with None => False | Some d => insert d p = None end.
Proof.
  destruct p as [x y]. unfold in_image. cbn [px py]. intros [Hx Hy].
  assert (x = 0 \/ x = 1) as [-> | ->] by lia; assert (y = 0 \/ y = 1) as [-> | ->] by lia;
    match goal with |- match _ with None => False | Some d => insert d ?q = None end =>
      assert (X : match new_delaunay 1 1 with None => false | Some d => match insert d q with None => true | Some _ => false end end = true) by (vm_compute; reflexivity) end;
    destruct (new_delaunay 1 1) as [d|]; try discriminate; destruct (insert d _); congruence.
Qed.


(** C50: for every image size up to 13106 other than 1x1 the enclosing triangle
    strictly contains every point of the image. *)
Theorem C50_encloses : forall w h p,
  1 <= w <= 13106 -> 1 <= h <= 13106 -> ~ (w = 1 /\ h = 1) -> in_image w h p ->
  let s := new_super_triangle w h in strictly_inside (d_a s) (d_b s) (d_c s) p.
Proof. intros w h p Hw Hh N Hp. apply super_inside; auto. lia. Qed.
Print Assumptions C50_encloses.
Example C50_case : in_image 640 480 (Pt 640 0) /\ strictly_inside (Pt (-960) (-400)) (Pt 320 1520) (Pt 1600 (-400)) (Pt 640 0).
Proof. split; [unfold in_image; cbn; lia|]. right. vm_compute. auto. Qed.

Lemma super_13107 : let s := new_super_triangle 13107 13107 in
  d_a s = Pt (-19660) (-6553) /\ d_b s = Pt 6554 (-32768) /\ d_c s = Pt (-32768) (-6553).
Proof. repeat split; vm_compute; reflexivity. Qed.

(** C50, limit: at 13107 the 16-bit coordinates wrap and even the centre of the
    image is outside. *)
Theorem C50_wraps_refuted : let s := new_super_triangle 13107 13107 in
  in_image 13107 13107 (Pt 6553 6553) /\ ~ strictly_inside (d_a s) (d_b s) (d_c s) (Pt 6553 6553).
Proof.
  intros s. split; [unfold in_image; cbn; lia|]. destruct super_13107 as (Ea & Eb & Ec).
  unfold s. rewrite Ea, Eb, Ec. unfold strictly_inside. intros [(A & B & C)|(A & B & C)]; vm_compute in A, B, C; discriminate.
Qed.
Print Assumptions C50_wraps_refuted.

(** C50, limit: 8191 is the largest size for which inserting the far corner works.
    At 8192x8192 (and although the enclosing triangle contains it) the corner is
    lost: Insert leaves only the enclosing triangle, while at 8191x8191 it makes
    three triangles. *)
Theorem C50_corner_8192_refuted :
  after_insert 8192 8192 (Pt 8192 8192) = Some [(Pt (-12288) (-4096), Pt 4096 20480, Pt 20480 (-4096))] /\
  after_insert 8191 8191 (Pt 8191 8191) =
    Some [(Pt (-12286) (-4095), Pt 4096 20478, Pt 8191 8191); (Pt 4096 20478, Pt 20478 (-4095), Pt 8191 8191);
          (Pt (-12286) (-4095), Pt 20478 (-4095), Pt 8191 8191)].
Proof. exact (conj lost_8192 kept_8191). Qed.
Print Assumptions C50_corner_8192_refuted.

(** C57: except for 1x1 the first corner of the enclosing triangle never has the
    x-coordinate -1 that marks a freed triangle. *)
Theorem C57_not_freed : forall w h, 1 <= w <= 13106 -> 1 <= h <= 13106 -> ~ (w = 1 /\ h = 1) ->
  px (d_a (new_super_triangle w h)) <> -1.
Proof.
  intros w h Hw Hh N. pose proof (super_not_freed w h Hw Hh ltac:(lia)) as F. unfold is_freed in F.
  now apply Z.eqb_neq in F.
Qed.
Print Assumptions C57_not_freed.

(** C57: on a 1x1 image the triangulation can be made, but every Insert panics. *)
Theorem C57_one_pixel : exists d, new_delaunay 1 1 = Some d /\ forall p, in_image 1 1 p -> insert d p = None.
Proof.
  destruct new_1x1 as (d & E). exists d. split; [exact E|]. intros p Hp. pose proof (insert_1x1 p Hp) as I. rewrite E in I. exact I.
Qed.
Print Assumptions C57_one_pixel.
