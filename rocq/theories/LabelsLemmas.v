(** Concrete instances used by [LabelsProps]. *)
From Verif Require Import Base GridModel NeighModel NeighSpec RootsModel RootsSpec UnionModel UnionSpec
  LabelsModel LabelsSpec LabelsProofs RunModel RunProofs.

Definition nb4 : list (offset * Q) :=
  [((0, -1, 0), 1%Q); ((0, 0, -1), 1%Q); ((0, 0, 1), 1%Q); ((0, 1, 0), 1%Q)].
Lemma nb4_ok : forall s d, In (s, d) nb4 -> unit_offset s /\ (0 < d)%Q.
Proof.
  unfold nb4. cbn [In]. intros s d H.
  repeat (destruct H as [[= <- <-]|H]; [split; [unfold unit_offset; lia|reflexivity]|]). contradiction.
Qed.
Definition no_vac : arr3 bool := fun _ _ _ => false.
Definition never : list (Z * Z * Z) -> nat -> nat -> outcome bool := fun _ _ _ => Done false.

(** 1x2x7 grid: twin maxima (0,0,3),(0,1,3) of value 5 and a maximum (0,1,0) of value 4. *)
Definition tw_data : arr3 Q :=
  reshape 0%Q [1; 2; 3; 5; 3; 2; 1;   4; 2; 3; 5; 3; 2; 1]%Q 2 7.

Lemma tw_ordered : exists lab bs,
  ongrid_run 1 2 7 tw_data nb4 no_vac 0 never (fun _ => [0; 2; 1]%nat) (seq 0 14) (seq 0 14) 40 = Done (lab, bs) /\
  map fst bs = [(0, 1, 0); (0, 0, 3)] /\
  nth_error lab (voxel_number 2 7 (0, 1, 0)) = Some 1 /\ nth_error lab (voxel_number 2 7 (0, 0, 3)) = Some 0.
Proof. eexists. eexists. split; [vm_compute; reflexivity|]. split; [reflexivity|]. split; reflexivity. Qed.

(** 1x1x4 chain [5 5 1 1]; voxel 1 is vacuum although it is as high as voxel 0. *)
Definition hg_data : arr3 Q := reshape 0%Q [5; 5; 1; 1]%Q 1 4.
Definition hg_vac : arr3 bool := reshape false [false; true; false; false] 1 4.

Lemma hg_hill fuel mask flats : mget 1 4 mask (0, 0, 1) = false -> lookup_flat 1 flats = None ->
  hill 1 1 4 hg_data nb4 fuel mask flats (0, 0, 1) = Running.
Proof.
  intros Hm Hl. induction fuel as [|fuel IH]; cbn [hill]; [reflexivity|].
  replace (snd (get_best_neighbor 1 1 4 hg_data (0, 0, 1) nb4)) with (0, 0, 1) by reflexivity.
  rewrite Hm. change (vx_eqb (0, 0, 1) (0, 0, 1)) with true. cbv iota. change (vx_flat 1 4 (0, 0, 1)) with 1. rewrite Hl. exact IH.
Qed.

Lemma hg_hangs same sorted fuel :
  let mask := get_maxima 1 1 4 hg_data (map fst nb4) hg_vac false (seq 0 4) in
  initialize_labels 1 1 4 hg_data nb4 fuel mask (argwhere 1 1 4 mask) same sorted = Running.
Proof.
  cbv zeta. unfold initialize_labels. set (mask := get_maxima _ _ _ _ _ _ _ _).
  assert (EM : mask = [true; false; false; false]) by reflexivity. rewrite EM. clear EM mask.
  replace (argwhere 1 1 4 [true; false; false; false]) with [(0, 0, 0)] by reflexivity.
  destruct fuel as [|[|fuel]]; [reflexivity|reflexivity|].
  replace (reduce_loop 1 1 4 hg_data nb4 (S (S fuel)) [(0, 0, 0)] ([true; false; false; false], []) 0)
    with (Done ([false; false; false; false], [(0, 1)])) by reflexivity.
  cbn [obind]. replace (np_unique (map snd [(0, 1)])) with [1] by reflexivity.
  cbn [merge_flats]. replace (vx_of 1 4 1) with (0, 0, 1) by reflexivity.
  rewrite hg_hill by reflexivity. reflexivity.
Qed.

Lemma no_valley_raises : no_valley (1 # 100000) [2; 1; 1]%Q = Raised /\ no_valley (1 # 100000) [3%Q] = Raised.
Proof. split; reflexivity. Qed.

(** A plateau 4 4 4 that is left at its right end towards 6: the plateau voxels are
    maxima by the mask but belong to the 6. *)
Definition pl_data : arr3 Q := reshape 0%Q [1; 4; 4; 4; 6; 2]%Q 1 6.
Definition pl_maxima : list (Z * Z * Z) := [(0, 0, 1); (0, 0, 2); (0, 0, 4)].
Lemma pl_run : exists L0 bs mask,
  let m0 := get_maxima 1 1 6 pl_data (map fst nb4) no_vac false (seq 0 6) in
  m0 = [false; true; true; false; true; false] /\
  initialize_labels 1 1 6 pl_data nb4 20 m0 (argwhere 1 1 6 m0) (fun _ _ => Done false) [2; 0; 1]%nat
    = Done (L0, bs, mask) /\ L0 = [-1; 4; 4; -1; 4; -1] /\ map fst bs = [(0, 0, 4)] /\ mask = m0.
Proof. eexists. eexists. eexists. cbv zeta. split; [reflexivity|]. split; [vm_compute; reflexivity|]. repeat split; reflexivity. Qed.

Lemma pl_false : false_maximum 1 1 6 pl_data (map fst nb4) no_vac (0, 0, 1).
Proof.
  assert (LH : forall v, In v [(0, 0, 1); (0, 0, 2)] -> locally_highest 1 1 6 pl_data (map fst nb4) v).
  { intros v Hv s w Hs Ht. cbn in Hv, Hs. unfold periodic_target in Ht.
    destruct Hv as [<-|[<-|[]]]; repeat (destruct Hs as [<-|Hs]; [subst w; vm_compute; congruence|]); contradiction. }
  assert (M1 : is_maximum 1 1 6 pl_data (map fst nb4) no_vac (0, 0, 1)).
  { split; [unfold in_grid; lia|]. split; [reflexivity|]. apply LH. cbn; auto. }
  assert (M2 : is_maximum 1 1 6 pl_data (map fst nb4) no_vac (0, 0, 2)).
  { split; [unfold in_grid; lia|]. split; [reflexivity|]. apply LH. cbn; auto. }
  apply (fm_step _ _ _ _ _ _ _ (0, 0, 2)); [exact M1| |].
  { exists (0, 0, 1). split; [cbn; auto|]. split; reflexivity. }
  apply (fm_edge _ _ _ _ _ _ _ (0, 0, 3)); [exact M2| |].
  { exists (0, 0, 1). split; [cbn; auto|]. split; reflexivity. }
  intros (_ & _ & H). specialize (H (0, 0, 1) (0, 0, 4)). cbn in H.
  assert (K : (6 <= 4)%Q) by (apply H; auto). apply K. reflexivity.
Qed.

Lemma ex_descending : Permutation [2; 0; 1]%nat (seq 0 3) /\
  StronglySorted (fun a b => (value_at pl_data (nth b pl_maxima (0, 0, 0)%Z) <=
     value_at pl_data (nth a pl_maxima (0, 0, 0)%Z))%Q) [2; 0; 1]%nat.
Proof.
  split.
  - change (seq 0 3) with ([0; 1; 2]%nat). apply (Permutation_trans (l' := [0; 2; 1]%nat)); [apply perm_swap|apply perm_skip, perm_swap].
  - repeat constructor; vm_compute; congruence.
Qed.
