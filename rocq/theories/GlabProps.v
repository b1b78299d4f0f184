(** Properties of the periodic labelling of masks. *)
From Verif Require Import Base GridModel GridProofs RootsModel UnionModel BadelfModel DimSpec DimLabel GlabModel GlabSpec GlabProofs GlabTop.
Local Open Scope Z_scope.

Definition periodic_labels (adj : voxel -> voxel -> Prop) (nx ny nz : Z) (m : arr3 bool) (out : arr3 Z) : Prop :=
  (forall v, in_box nx ny nz v -> (rd3 out v = 0 <-> rd3 m v = false)) /\
  (forall a b, set_in nx ny nz m a -> set_in nx ny nz m b -> (rd3 out a = rd3 out b <-> chain (wrapped_adj adj nx ny nz) (set_in nx ny nz m) a b)) /\
  (exists K, 0 <= K /\ forall x, 1 <= x <= K <-> exists v, set_in nx ny nz m v /\ rd3 out v = x).

Lemma some_unset nx ny nz (m : arr3 bool) : (exists v, in_box nx ny nz v /\ rd3 m v = false) \/ (forall v, in_box nx ny nz v -> rd3 m v = true).
Proof.
  destruct (forallb (rd3 m) (voxels nx ny nz)) eqn:E.
  - right. intros v V. apply box_voxels in V. rewrite forallb_forall in E. now apply E.
  - left. apply not_true_iff_false in E. rewrite forallb_forall in E. assert (H : existsb (fun v => negb (rd3 m v)) (voxels nx ny nz) = true).
    { apply not_false_iff_true. intros N. apply E. intros v V. destruct (rd3 m v) eqn:M; [reflexivity|]. exfalso. enough (existsb (fun v => negb (rd3 m v)) (voxels nx ny nz) = true) by congruence. apply existsb_exists. exists v. now rewrite M. }
    apply existsb_exists in H as (v & V & M). exists v. split; [now apply box_voxels|now apply negb_true_iff].
Qed.

(** C23: the default structure. *)
Theorem C23_label nx ny nz scipy m fuel :
  0 < nx -> 0 < ny -> 0 < nz -> scipy_ok touching scipy -> (length (voxels nx ny nz) < fuel)%nat ->
  exists out, grid_label nx ny nz scipy fuel true m = Done out /\ periodic_labels touching nx ny nz m out.
Proof.
  intros HX HY HZ SO FU. destruct (some_unset nx ny nz m) as [BG|ALL].
  - exact (label_background nx ny nz HX HY HZ touching touching_neighbourhood scipy SO m BG fuel true FU).
  - assert (OK : forall v, set_in nx ny nz m v <-> in_box nx ny nz v). { intros v. split; [intros [V _]; exact V|]. intros V. split; [exact V|now apply ALL]. }
    assert (ONE : forall a b, set_in nx ny nz m a -> set_in nx ny nz m b -> chain touching (set_in nx ny nz m) a b).
    { apply (box_connected nx ny nz touching); [exact (proj2 (proj2 face_neighbourhood))|exact OK]. }
    destruct (label_full nx ny nz HX HY HZ touching scipy SO m ALL ONE fuel) as (out & E & H).
    exists out. split; [exact E|]. split; [|split].
    + intros v V. rewrite (H v V), (ALL v V). split; [lia|discriminate].
    + intros a b A B. rewrite (H a (proj1 A)), (H b (proj1 B)). split; [|reflexivity]. intros _. apply (chain_wchain nx ny nz). now apply ONE.
    + exists 1. split; [lia|]. intros x. split.
      * intros X. exists (0, 0, 0). assert (V : in_box nx ny nz (0, 0, 0)) by (cbn; lia). rewrite (H _ V). split; [split; [exact V|now apply ALL]|lia].
      * intros (v & V & <-). rewrite (H v (proj1 V)). lia.
Qed.

(** Any other structure: the same with its neighbourhood when some voxel is not selected. *)
Theorem C23_structure nx ny nz adj scipy m fuel early :
  0 < nx -> 0 < ny -> 0 < nz -> neighbourhood adj -> scipy_ok adj scipy -> (length (voxels nx ny nz) < fuel)%nat ->
  (exists v, in_box nx ny nz v /\ rd3 m v = false) ->
  exists out, grid_label nx ny nz scipy fuel early m = Done out /\ periodic_labels adj nx ny nz m out.
Proof. intros HX HY HZ NB SO FU BG. exact (label_background nx ny nz HX HY HZ adj NB scipy SO m BG fuel early FU). Qed.

(** Labellings with the promised properties exist, for both neighbourhoods. *)
Theorem C23_scipy : neighbourhood touching /\ neighbourhood sharing_face /\ scipy_ok touching (ref_scipy touchb) /\ scipy_ok sharing_face (ref_scipy faceb).
Proof. split; [exact touching_neighbourhood|]. split; [exact face_neighbourhood|]. split; [exact ref_touching|exact ref_faces]. Qed.

(** C85: without a structure a mask selecting every voxel cannot be labelled. *)
Theorem C85_full_refuted : exists scipy, scipy_ok sharing_face scipy /\
  forall nx ny nz m fuel, 0 < nx -> 0 < ny -> 0 < nz -> (forall v, in_box nx ny nz v -> rd3 m v = true) -> grid_label nx ny nz scipy fuel false m = Raised.
Proof.
  exists (ref_scipy faceb). split; [exact ref_faces|]. intros nx ny nz m fuel HX HY HZ ALL.
  apply (label_full_fails nx ny nz HX HY HZ sharing_face (ref_scipy faceb) ref_faces m ALL).
  apply (box_connected nx ny nz sharing_face); [auto|]. intros v. split; [intros [V _]; exact V|]. intros V. split; [exact V|now apply ALL].
Qed.

(** A row of five voxels, the first, third and last selected: the ends are one feature.  [row_labels] is
    what [scipy.ndimage.label] returns for the row and for the padded row. *)
Definition row (i _ _ : Z) : bool := (i =? 0) || (i =? 2) || (i =? 4).
Definition row_labels (px _ _ : Z) (_ : arr3 bool) : arr3 Z :=
  fun i _ _ => nth (Z.to_nat i) (if px =? 5 then [1; 0; 2; 0; 3] else [1; 1; 0; 2; 0; 3; 3]) 0.
Example C23_row : match grid_label 5 1 1 row_labels 6 false row with Done out => map (rd3 out) (voxels 5 1 1) | _ => [] end = [1; 0; 2; 0; 1].
Proof. vm_compute. reflexivity. Qed.
Example C23_ends : exists out, grid_label 5 1 1 (ref_scipy touchb) 6 true row = Done out /\ rd3 out (0, 0, 0) = rd3 out (4, 0, 0) /\ rd3 out (1, 0, 0) = 0.
Proof.
  destruct (C23_label 5 1 1 (ref_scipy touchb) row 6 eq_refl eq_refl eq_refl ref_touching ltac:(repeat constructor)) as (out & E & Z0 & EQ & _). exists out. split; [exact E|]. split.
  - apply EQ; [split; [cbn; lia|reflexivity]|split; [cbn; lia|reflexivity]|]. apply (chain_step _ _ _ (4, 0, 0)); [split; [cbn; lia|reflexivity]|exists (-1, 0, 0); cbn; lia|].
    constructor. split; [cbn; lia|reflexivity].
  - apply Z0; [cbn; lia|reflexivity].
Qed.
(** Four voxels, all but the second selected: one feature through the face. *)
Definition col_labels (px _ _ : Z) (_ : arr3 bool) : arr3 Z :=
  fun i _ _ => nth (Z.to_nat i) (if px =? 4 then [1; 0; 2; 2] else [1; 1; 0; 2; 2; 2]) 0.
Example C23_col : match grid_label 4 1 1 col_labels 6 true (fun i _ _ => negb (i =? 1)) with Done out => map (rd3 out) (voxels 4 1 1) | _ => [] end = [1; 0; 1; 1].
Proof. vm_compute. reflexivity. Qed.
Example C85_ex : grid_label 2 1 1 (ref_scipy faceb) 5 false (fun _ _ _ => true) = Raised.
Proof. apply (label_full_fails 2 1 1 eq_refl eq_refl eq_refl sharing_face _ ref_faces); [now intros [[i j] k]|]. apply (box_connected 2 1 1 sharing_face); [auto|]. intros v. split; [intros [V _]; exact V|]. intros V. split; [exact V|now destruct v as [[i j] k]]. Qed.

Print Assumptions C23_label.
Print Assumptions C23_structure.
Print Assumptions C23_scipy.
Print Assumptions C85_full_refuted.
