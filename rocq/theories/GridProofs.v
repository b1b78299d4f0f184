From Verif Require Import Base GridModel.
From Coq Require Import ZifyBool ZifyNat.
Ltac Zify.zify_post_hook ::= Z.div_mod_to_equations.

Lemma wrap1_window i n : 0 < n -> (0 <= wrap1 i n < n <-> - n <= i < 2 * n).
Proof. intro H. unfold wrap1. destruct (n <=? i) eqn:?, (i <? 0) eqn:?; lia. Qed.

Lemma wrap1_mod i n : 0 < n -> - n <= i < 2 * n -> wrap1 i n = i mod n.
Proof.
  intros H W. symmetry. unfold wrap1.
  destruct (n <=? i) eqn:E1; [|destruct (i <? 0) eqn:E2].
  - symmetry. apply (Z.mod_unique i n 1); lia.
  - symmetry. apply (Z.mod_unique i n (-1)); lia.
  - apply Z.mod_small. lia.
Qed.

Lemma wrap1_mod_iff i n : 0 < n -> (wrap1 i n = i mod n <-> - n <= i < 2 * n).
Proof.
  intro H. split; [|now apply wrap1_mod].
  intro E. apply wrap1_window; [exact H|]. rewrite E. apply Z.mod_pos_bound, H.
Qed.

Lemma wrap1_shift_fst i n : fst (wrap1_shift i n) = wrap1 i n.
Proof. unfold wrap1_shift, wrap1. destruct (n <=? i), (i <? 0); reflexivity. Qed.

Lemma wrap1_shift_spec i n : i = fst (wrap1_shift i n) + snd (wrap1_shift i n) * n /\
  -1 <= snd (wrap1_shift i n) <= 1.
Proof. unfold wrap1_shift. destruct (n <=? i) eqn:?, (i <? 0) eqn:?; cbn [fst snd]; lia. Qed.

Lemma wrap1_shift_div i n : 0 < n -> - n <= i < 2 * n -> snd (wrap1_shift i n) = i / n.
Proof.
  intros H W. pose proof (wrap1_shift_spec i n) as [S _].
  rewrite wrap1_shift_fst in S. rewrite (wrap1_mod i n H W) in S.
  pose proof (Z.div_mod i n). nia.
Qed.

Lemma coords_flat_range i j k nx ny nz :
  in_grid nx ny nz (i, j, k) -> 0 <= coords_to_flat i j k (ny * nz) nz < nx * ny * nz.
Proof.
  intros (Hi & Hj & Hk). unfold coords_to_flat.
  assert (B : 0 <= j * nz + k < ny * nz) by nia.
  rewrite <- Z.mul_assoc. set (P := ny * nz) in *.
  assert (0 <= i * P <= (nx - 1) * P) by nia. nia.
Qed.

Lemma flat_coords_inverse i j k nx ny nz :
  in_grid nx ny nz (i, j, k) ->
  flat_to_coords (coords_to_flat i j k (ny * nz) nz) (ny * nz) nz = (i, j, k).
Proof.
  intros (Hi & Hj & Hk). unfold flat_to_coords, coords_to_flat.
  assert (B : 0 <= j * nz + k < ny * nz) by nia.
  assert (E1 : (i * (ny * nz) + j * nz + k) / (ny * nz) = i).
  { symmetry. apply (Z.div_unique _ _ _ (j * nz + k)); [left; exact B|nia]. }
  assert (E2 : (i * (ny * nz) + j * nz + k) mod (ny * nz) = j * nz + k).
  { symmetry. apply (Z.mod_unique _ _ i); [left; exact B|nia]. }
  rewrite E1, E2.
  assert (E3 : (j * nz + k) / nz = j).
  { symmetry. apply (Z.div_unique _ _ _ k); [left; lia|nia]. }
  assert (E4 : (i * (ny * nz) + j * nz + k) mod nz = k).
  { symmetry. apply (Z.mod_unique _ _ (i * ny + j)); [left; lia|nia]. }
  now rewrite E3, E4.
Qed.

Lemma coords_flat_inverse idx nx ny nz :
  0 < ny -> 0 < nz -> 0 <= idx < nx * ny * nz ->
  let '(i, j, k) := flat_to_coords idx (ny * nz) nz in
  in_grid nx ny nz (i, j, k) /\ coords_to_flat i j k (ny * nz) nz = idx.
Proof.
  intros Hy Hz H. unfold flat_to_coords, coords_to_flat, in_grid.
  assert (P : 0 < ny * nz) by nia.
  pose proof (Z.div_mod idx (ny * nz)) as D1.
  pose proof (Z.mod_pos_bound idx (ny * nz) P) as M1.
  set (m := idx mod (ny * nz)) in *.
  pose proof (Z.div_mod m nz) as D2.
  pose proof (Z.mod_pos_bound m nz Hz) as M2.
  assert (E : idx mod nz = m mod nz).
  { unfold m. rewrite (Z.mul_comm ny nz). rewrite Z.rem_mul_r by lia.
    rewrite (Z.mul_comm nz ((idx / nz) mod ny)), Z.mod_add by lia.
    rewrite Z.mod_mod by lia. reflexivity. }
  rewrite E. repeat split; try lia; try nia.
Qed.

Lemma in_voxels nx ny nz v : In v (voxels nx ny nz) <-> in_grid nx ny nz v.
Proof.
  unfold voxels, in_grid. destruct v as [[i j] k]. rewrite in_flat_map. split.
  - intros (i' & Hi & H). apply in_flat_map in H as (j' & Hj & H).
    apply in_map_iff in H as (k' & E & Hk). injection E as <- <- <-.
    rewrite in_zrange in *. tauto.
  - intros (Hi & Hj & Hk). exists i. rewrite in_zrange. split; [exact Hi|].
    apply in_flat_map. exists j. rewrite in_zrange. split; [exact Hj|].
    apply in_map_iff. exists k. rewrite in_zrange. auto.
Qed.

(** Neighbour steps of size at most one stay inside the validity window. *)
Lemma unit_step_window i s n : 0 <= i < n -> -1 <= s <= 1 -> - n <= i + s < 2 * n.
Proof. lia. Qed.

Lemma wrap_point_in_grid i j k si sj sk nx ny nz :
  in_grid nx ny nz (i, j, k) -> -1 <= si <= 1 -> -1 <= sj <= 1 -> -1 <= sk <= 1 ->
  in_grid nx ny nz (wrap_point (i + si) (j + sj) (k + sk) nx ny nz).
Proof.
  intros (Hi & Hj & Hk) Hsi Hsj Hsk. unfold wrap_point, in_grid.
  repeat split; apply wrap1_window; lia.
Qed.
