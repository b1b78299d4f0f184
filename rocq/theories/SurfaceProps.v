(** C19 and C34: distances to basin surfaces and written volumes. *)
From Verif Require Import Base GridModel GridProofs NeighModel NeighSpec ChargeModel ChargeProofs LabelsModel NearModel NearSpec NearProofs SurfaceModel SurfaceProofs.
From Coq Require Import ZifyBool ZifyNat Lqa.

(** ** C34 *)
(** The file of an index holds the data on exactly the voxels with that label, so no voxel is nonzero in the files of two indices. *)
Theorem C34_disjoint : forall data labels indices b f, In (b, f) (write_volumes data labels indices) ->
  In b indices /\
  (forall i j k, (labels i j k = b -> f i j k = data i j k) /\ (labels i j k <> b -> f i j k = 0%Q)) /\
  (forall b' f' i j k, In (b', f') (write_volumes data labels indices) -> b' <> b -> f i j k = 0%Q \/ f' i j k = 0%Q).
Proof.
  intros data labels indices b f H. destruct (written_in _ _ _ _ _ H) as [H1 H2]. split; [exact H1|]. split; [exact H2|].
  intros b' f' i j k H' N. destruct (written_in _ _ _ _ _ H') as [_ H2']. destruct (Z.eq_dec (labels i j k) b) as [E|E]; [right; apply H2'; lia|left; now apply H2].
Qed.
Print Assumptions C34_disjoint.

Theorem C34_one_file_per_index : forall data labels indices, map fst (write_volumes data labels indices) = indices.
Proof. intros. unfold write_volumes. rewrite map_map. cbn. apply map_id. Qed.
Print Assumptions C34_one_file_per_index.

Theorem C34_sum : forall data labels indices, NoDup indices -> forall i j k,
  (write_volumes_sum data labels indices i j k == qsum (map (fun bf : Z * arr3 Q => snd bf i j k) (write_volumes data labels indices)))%Q.
Proof. intros. symmetry. now apply written_sum. Qed.
Print Assumptions C34_sum.

(** All atoms together give the data on the labelled voxels and nothing in the vacuum. *)
Theorem C34_partition : forall data labels natoms i j k,
  (0 <= labels i j k < Z.of_nat natoms -> (qsum (map (fun bf : Z * arr3 Q => snd bf i j k) (write_all_atoms data labels natoms)) == data i j k)%Q) /\
  (labels i j k < 0 -> (qsum (map (fun bf : Z * arr3 Q => snd bf i j k) (write_all_atoms data labels natoms)) == 0)%Q).
Proof. exact all_atoms_total. Qed.
Print Assumptions C34_partition.

(** The mean of a written charge file is the charge reported for its basin. *)
Theorem C34_integral : forall nx ny nz data labels vol nb b, (b < nb)%nat ->
  (forall v, in_grid nx ny nz v -> value_at labels v < Z.of_nat nb) ->
  let vs := voxels nx ny nz in
  let r := get_basin_charges_and_volumes (map (value_at data) vs) (map (value_at labels) vs) vol nb in
  forall bs f, In (Z.of_nat b, f) (write_volumes data labels bs) ->
  (nth b (i_charges r) 0 == qsum (map (value_at f) vs) / inject_Z (Z.of_nat (length vs)))%Q.
Proof. exact written_charge. Qed.
Print Assumptions C34_integral.

Theorem C34_species : forall (S : Type) (eqb : S -> S -> bool) data labels symbols s i j k, (forall a b, eqb a b = true <-> a = b) ->
  (0 <= labels i j k /\ nth_error symbols (Z.to_nat (labels i j k)) = Some s -> write_species eqb data labels symbols s i j k = data i j k) /\
  (~ (0 <= labels i j k /\ nth_error symbols (Z.to_nat (labels i j k)) = Some s) -> write_species eqb data labels symbols s i j k = 0%Q).
Proof. intros S eqb. exact (species_spec eqb). Qed.
Print Assumptions C34_species.

(** [Badelf.write_atom_volumes] writes the complement, and the second file lacks the first atom too. *)
Theorem C138_badelf_refuted : exists data labels f0 f1,
  badelf_write data labels [0; 1] = [(0, f0); (1, f1)] /\
  ~ Qeq (f0 0 0 0) (data 0 0 0) /\ labels 0 0 0 = 0 /\ f0 0 0 1 = 7%Q /\ labels 0 0 1 = 1 /\
  (forall k, 0 <= k < 2 -> f1 0 0 k = 0%Q).
Proof.
  exists (fun _ _ k => if k =? 0 then 3%Q else 7%Q), (fun _ _ k => k). eexists. eexists. split; [reflexivity|].
  cbn. split; [easy|]. split; [reflexivity|]. split; [reflexivity|]. split; [reflexivity|]. intros k Hk. assert (k = 0 \/ k = 1) as [-> | ->] by lia; reflexivity.
Qed.
Print Assumptions C138_badelf_refuted.

Example C34_ex : let data : arr3 Q := fun _ _ k => inject_Z (k + 1) in let labels : arr3 Z := fun _ _ k => nth (Z.to_nat k) [0; 1; -1; 0] 0 in
  map (fun bf : Z * arr3 Q => (fst bf, map (snd bf 0 0) [0; 1; 2; 3])) (write_all_basins data labels [true; true]) =
    [(0, [1; 0; 0; 4]%Q); (1, [0; 2; 0; 0]%Q)] /\
  map (write_volumes_sum data labels [0; 1] 0 0) [0; 1; 2; 3] = [1; 2; 0; 4]%Q /\
  map (write_species Nat.eqb data labels [8; 26]%nat 26%nat 0 0) [0; 1; 2; 3] = [0; 2; 0; 0]%Q.
Proof. repeat split. Qed.

(** ** C19 *)
(** When every surface voxel belongs to a basin: the minimum is a lower bound, it is the
    distance of a surface voxel of the same basin, and the average is the mean over them.
    [root] is any strictly increasing function, and [max_value] is as in bader.py line 856:
    twice the longest cell vector. *)
Theorem C19_surface : forall nx ny nz root matrix labels coords edge M2,
  (0 < M2)%Q ->
  (sq_norm (fst (fst matrix)) <= M2)%Q -> (sq_norm (snd (fst matrix)) <= M2)%Q -> (sq_norm (snd matrix) <= M2)%Q ->
  (forall a b, 0 <= a -> a < b -> root a < root b)%Q ->
  (forall v, in_grid nx ny nz v -> value_at edge v = true -> 0 <= value_at labels v < Z.of_nat (length coords)) ->
  let r := get_min_avg_surface_dists nx ny nz root matrix labels coords edge (root (4 * M2))%Q in
  length (fst r) = length coords /\ length (snd r) = length coords /\
  forall l, (l < length coords)%nat ->
  let own := fun v => in_grid nx ny nz v /\ value_at edge v = true /\ value_at labels v = Z.of_nat l in
  let sv := filter (fun v => value_at edge v && (value_at labels v =? Z.of_nat l)) (voxels nx ny nz) in
  let d := fun v => root (sq_dist nx ny nz matrix (nth l coords (0, 0, 0)%Q) v) in
  (exists v, own v) ->
  (forall v, own v -> (nth l (fst r) 0 <= d v)%Q) /\
  (exists v, own v /\ nth l (fst r) 0%Q = d v) /\
  (nth l (snd r) 0 == qsum (map d sv) / inject_Z (Z.of_nat (length sv)))%Q /\
  (nth l (fst r) 0 <= nth l (snd r) 0)%Q.
Proof.
  intros nx ny nz root matrix labels coords edge M2 P A B C MON HL r.
  destruct (surface_correct nx ny nz root matrix labels coords edge (root (4 * M2))%Q HL) as (L1 & L2 & K).
  split; [exact L1|]. split; [exact L2|]. intros l Hl own sv d Hown. destruct (K l Hl) as (K1 & _ & K3 & K4).
  split; [exact K1|]. split; [|exact (K4 Hown)].
  destruct K3 as [K3|K3]; [exfalso|exact K3]. destruct Hown as (v & Hv). specialize (K1 v Hv).
  pose proof (surface_range nx ny nz matrix (nth l coords (0, 0, 0)%Q) v M2 A B C) as R.
  assert (NN : (0 <= sq_dist nx ny nz matrix (nth l coords (0, 0, 0)%Q) v)%Q).
  { clear. unfold sq_dist. destruct (nth l coords _) as [[f0 f1] f2], v as [[i j] k]. destruct (cart _ _) as [[x y] z]. cbn. nra. }
  specialize (MON (sq_dist nx ny nz matrix (nth l coords (0, 0, 0)%Q) v) (4 * M2)%Q NN ltac:(lra)).
  change (fst (get_min_avg_surface_dists nx ny nz root matrix labels coords edge (root (4 * M2))%Q)) with (fst r) in K3.
  change (nth l (fst r) 0 <= d v)%Q in K1. rewrite K3 in K1. unfold d in K1. lra.
Qed.
Print Assumptions C19_surface.

Definition unit_cell : mat := ((1, 0, 0), (0, 1, 0), (0, 0, 1))%Q.
Definition line_labels (l : list Z) : arr3 Z := fun _ _ k => nth (Z.to_nat k) l 0.
Definition half_coords : list vec := [(0, 0, 0); (0, 0, 1 # 2)]%Q.
(** Vacuum voxels next to a basin are edges too, and their label -1 is the last entry of
    the arrays: here the surface of basin 1 is voxel 4 alone, at its maximum, yet the
    average is not 0. *)
Theorem C131_vacuum_refuted : exists nx ny nz labels coords edge l,
  (l < length coords)%nat /\
  (forall v, in_grid nx ny nz v -> value_at edge v = true -> -1 <= value_at labels v < Z.of_nat (length coords)) /\
  let r := get_min_avg_surface_dists nx ny nz (fun q => q) unit_cell labels coords edge 4 in
  let sv := filter (fun v => value_at edge v && (value_at labels v =? Z.of_nat l)) (voxels nx ny nz) in
  let d := fun v => sq_dist nx ny nz unit_cell (nth l coords (0, 0, 0)%Q) v in
  sv <> [] /\ ~ (nth l (snd r) 0 == qsum (map d sv) / inject_Z (Z.of_nat (length sv)))%Q.
Proof.
  exists 1, 1, 8, (line_labels [0; 0; 0; 0; 1; -1; -1; -1]), half_coords, (fun _ _ k => negb ((k =? 1) || (k =? 2))), 1%nat.
  split; [cbn; lia|]. split.
  { intros [[i j] k] (Hi & Hj & Hk) _. change (-1 <= nth (Z.to_nat k) [0; 0; 0; 0; 1; -1; -1; -1] 0 < 2). assert (H : Forall (fun x => -1 <= x < 2) [0; 0; 0; 0; 1; -1; -1; -1]) by (repeat constructor; lia).
    rewrite Forall_forall in H. apply H. apply nth_In. cbn. lia. }
  vm_compute. split; discriminate.
Qed.
Print Assumptions C131_vacuum_refuted.

Example C19_ex : let r := get_min_avg_surface_dists 1 1 8 (fun q => q) unit_cell (line_labels [0; 0; 1; 1; 1; 1; 1; 0]) half_coords
    (fun _ _ k => existsb (Z.eqb k) [1; 2; 6; 7]) 4 in
  Forall2 Qeq (fst r) [1 # 64; 4 # 64]%Q /\ Forall2 Qeq (snd r) [1 # 64; 4 # 64]%Q.
Proof. vm_compute. repeat constructor. Qed.
