(** Property theorems C01-C07, C15, C16.  Each theorem is closed by [exact]; the
    examples show concrete non-trivial instances of the hypotheses. *)
From Verif Require Import Base GridModel GridProofs NeighModel NeighSpec NeighProofs
  RootsModel RootsSpec RootsProofs OngridProofs ChargeModel ChargeProofs CoreLemmas.

(** ** C01 *)
Theorem C01_wrap_window : forall i n, 0 < n ->
  (wrap1 i n = i mod n <-> - n <= i < 2 * n) /\
  (0 <= wrap1 i n < n <-> - n <= i < 2 * n).
Proof. exact wrap_window_both. Qed.
Print Assumptions C01_wrap_window.

Theorem C01_neighbour_in_range : forall i j k si sj sk nx ny nz,
  in_grid nx ny nz (i, j, k) -> -1 <= si <= 1 -> -1 <= sj <= 1 -> -1 <= sk <= 1 ->
  in_grid nx ny nz (wrap_point (i + si) (j + sj) (k + sk) nx ny nz) /\
  wrap_point (i + si) (j + sj) (k + sk) nx ny nz
    = ((i + si) mod nx, (j + sj) mod ny, (k + sk) mod nz).
Proof. exact neighbour_in_range. Qed.
Print Assumptions C01_neighbour_in_range.

Theorem C01_shift_reconstructs : forall i j k nx ny nz,
  let '((i', j', k'), (a, b, c)) := wrap_point_w_shift i j k nx ny nz in
  wrap_point i j k nx ny nz = (i', j', k') /\
  i = i' + a * nx /\ j = j' + b * ny /\ k = k' + c * nz.
Proof. exact shift_reconstructs. Qed.
Print Assumptions C01_shift_reconstructs.

Theorem C01_flat_bijection : forall nx ny nz, 0 < ny -> 0 < nz ->
  (forall i j k, in_grid nx ny nz (i, j, k) ->
     0 <= coords_to_flat i j k (ny * nz) nz < nx * ny * nz /\
     flat_to_coords (coords_to_flat i j k (ny * nz) nz) (ny * nz) nz = (i, j, k)) /\
  (forall idx, 0 <= idx < nx * ny * nz ->
     let '(i, j, k) := flat_to_coords idx (ny * nz) nz in
     in_grid nx ny nz (i, j, k) /\ coords_to_flat i j k (ny * nz) nz = idx).
Proof. exact flat_bijection. Qed.
Print Assumptions C01_flat_bijection.

Example C01_ex : wrap_point (-1) 5 3 4 5 6 = (3, 0, 3) /\ wrap1 10 5 = 5 /\
  flat_to_coords 37 30 6 = (1, 1, 1) /\ coords_to_flat 1 1 1 30 6 = 37.
Proof. repeat split. Qed.

(** ** C02 *)
Theorem C02_best_neighbor : forall nx ny nz, 0 < nx -> 0 < ny -> 0 < nz ->
  forall (data : arr3 Q) v, in_grid nx ny nz v ->
  forall nbs, (forall s d, In (s, d) nbs -> unit_offset s /\ (0 < d)%Q) ->
  let '(t, w) := get_best_neighbor nx ny nz data v nbs in
  (t = (0, 0, 0) /\ w = v /\
   (forall s d u, In (s, d) nbs -> periodic_target nx ny nz v s u -> (value_at data u <= value_at data v)%Q)) \/
  (exists pre d post q,
     nbs = pre ++ (t, d) :: post /\ periodic_target nx ny nz v t w /\
     (value_at data v < value_at data w)%Q /\ slope nx ny nz data v (t, d) q /\
     (forall nb q', In nb pre -> slope nx ny nz data v nb q' -> (q' < q)%Q) /\
     (forall nb q', In nb post -> slope nx ny nz data v nb q' -> (q' <= q)%Q)).
Proof. exact best_neighbor_spec. Qed.
Print Assumptions C02_best_neighbor.

Theorem C02_stays_iff_maximum : forall nx ny nz, 0 < nx -> 0 < ny -> 0 < nz ->
  forall (data : arr3 Q) v nbs, in_grid nx ny nz v ->
  (forall s d, In (s, d) nbs -> unit_offset s /\ (0 < d)%Q) ->
  snd (get_best_neighbor nx ny nz data v nbs) = v <->
  locally_highest nx ny nz data (map fst nbs) v.
Proof. exact best_neighbor_fixed_iff. Qed.
Print Assumptions C02_stays_iff_maximum.

(** A 1x1x4 periodic chain with values 1 5 5 3; neighbours -z (distance 1), +z (1). *)
Definition ex_data : arr3 Q := reshape 0%Q [1; 5; 5; 3]%Q 1 4.
Definition ex_nbs : list (offset * Q) := [((0, 0, -1), 1%Q); ((0, 0, 1), 1%Q)].
Definition ex_vac : arr3 bool := fun _ _ _ => false.

Example C02_ex : get_best_neighbor 1 1 4 ex_data (0, 0, 0) ex_nbs = ((0, 0, 1), (0, 0, 1)) /\
  get_best_neighbor 1 1 4 ex_data (0, 0, 3) ex_nbs = ((0, 0, -1), (0, 0, 2)) /\
  snd (get_best_neighbor 1 1 4 ex_data (0, 0, 1) ex_nbs) = (0, 0, 1).
Proof. repeat split. Qed.
Example C02_ex_hyp : forall s d, In (s, d) ex_nbs -> unit_offset s /\ (0 < d)%Q.
Proof. exact ex_nbs_ok. Qed.

(** ** C03 *)
Theorem C03_maxima_exact : forall nx ny nz, 0 < nx -> 0 < ny -> 0 < nz ->
  forall data ts vac order v, covers nx ny nz order -> in_grid nx ny nz v ->
  (forall s, In s ts -> unit_offset s) ->
  nth (voxel_number ny nz v) (get_maxima nx ny nz data ts vac false order) false = true <->
  value_at vac v = false /\ locally_highest nx ny nz data ts v.
Proof. exact maxima_spec. Qed.
Print Assumptions C03_maxima_exact.

Theorem C03_minima_exact : forall nx ny nz, 0 < nx -> 0 < ny -> 0 < nz ->
  forall data ts vac order v, covers nx ny nz order -> in_grid nx ny nz v ->
  (forall s, In s ts -> unit_offset s) ->
  nth (voxel_number ny nz v) (get_maxima nx ny nz data ts vac true order) false = true <->
  value_at vac v = false /\ locally_lowest nx ny nz data ts v.
Proof. exact minima_spec. Qed.
Print Assumptions C03_minima_exact.

Theorem C03_maximum_exists : forall nx ny nz, 0 < nx -> 0 < ny -> 0 < nz ->
  forall data ts vac,
  (exists v, in_grid nx ny nz v /\ value_at vac v = false) ->
  (forall v w, in_grid nx ny nz v -> in_grid nx ny nz w ->
     value_at vac w = true -> value_at vac v = false -> (value_at data w <= value_at data v)%Q) ->
  exists v, in_grid nx ny nz v /\ value_at vac v = false /\ locally_highest nx ny nz data ts v.
Proof. exact maximum_exists. Qed.
Print Assumptions C03_maximum_exists.

(** [np.argwhere] of the mask lists exactly the maxima, each once, in C order. *)
Theorem C03_argwhere : forall nx ny nz, 0 < nx -> 0 < ny -> 0 < nz ->
  forall mask, NoDup (argwhere nx ny nz mask) /\
  StronglySorted (fun v w => (voxel_number ny nz v < voxel_number ny nz w)%nat) (argwhere nx ny nz mask) /\
  forall v, In v (argwhere nx ny nz mask) <->
            in_grid nx ny nz v /\ nth (voxel_number ny nz v) mask false = true.
Proof. exact argwhere_spec. Qed.
Print Assumptions C03_argwhere.

Example C03_ex : get_maxima 1 1 4 ex_data (map fst ex_nbs) ex_vac false (seq 0 4) = [false; true; true; false].
Proof. reflexivity. Qed.

(** ** C04 *)
Theorem C04_roots : forall p num_vacuum fuel,
  good_pointers p -> (num_vacuum = 0 -> ~ In (-1) p) ->
  (Nat.log2_up (length p) < fuel)%nat ->
  exists q, get_roots num_vacuum fuel p = Done q /\ length q = length p /\
  forall i x, nth_error p i = Some x ->
    (x = -1 -> nth_error q i = Some (-1)) /\
    (x <> -1 -> exists r, nth_error q i = Some (Z.of_nat r) /\ reaches p i r).
Proof. exact get_roots_correct. Qed.
Print Assumptions C04_roots.

Theorem C04_end_unique : forall p i r1 r2, reaches p i r1 -> reaches p i r2 -> r1 = r2.
Proof. exact reaches_unique. Qed.
Print Assumptions C04_end_unique.

Example C04_ex : get_roots 1 5 [1; 2; 2; -1; 0] = Done [2; 2; 2; -1; 2].
Proof. reflexivity. Qed.
Example C04_ex_hyp : good_pointers [1; 2; 2; -1; 0].
Proof. exact ex_good_pointers. Qed.

(** Finding: a pointer into the vacuum (possible when the vacuum is computed from a
    grid different from the reference grid) makes the voxel take the label of the
    last voxel of the array instead of the end of its chain. *)
Theorem C122_vacuum_pointer_refuted : exists p,
  nth_error p 0 = Some 1 /\ nth_error p 1 = Some (-1) /\ ~ reaches p 0 2 /\
  get_roots 1 5 p = Done [2; -1; 2].
Proof. exact vacuum_pointer_bug. Qed.
Print Assumptions C122_vacuum_pointer_refuted.

(** ** C05 *)
Theorem C05_ongrid : forall nx ny nz, 0 < nx -> 0 < ny -> 0 < nz ->
  forall data nbs, (forall s d, In (s, d) nbs -> unit_offset s /\ (0 < d)%Q) ->
  forall vac,
  (forall v w, in_grid nx ny nz v -> in_grid nx ny nz w ->
     value_at vac w = true -> value_at vac v = false -> (value_at data w <= value_at data v)%Q) ->
  forall mx, (forall v, in_grid nx ny nz v -> value_at mx v = true <->
     value_at vac v = false /\ locally_highest nx ny nz data (map fst nbs) v) ->
  forall L0, length L0 = Z.to_nat (nx * ny * nz) ->
  (forall v, in_grid nx ny nz v -> value_at vac v = true -> nth_error L0 (voxel_number ny nz v) = Some (-1)) ->
  (forall m, in_grid nx ny nz m -> value_at mx m = true ->
     exists b, in_grid nx ny nz b /\ value_at mx b = true /\
       nth_error L0 (voxel_number ny nz m) = Some (Z.of_nat (voxel_number ny nz b)) /\
       nth_error L0 (voxel_number ny nz b) = Some (Z.of_nat (voxel_number ny nz b))) ->
  forall order, covers nx ny nz order ->
  forall num_vacuum, (num_vacuum = 0 -> forall v, in_grid nx ny nz v -> value_at vac v = false) ->
  forall fuel, (Nat.log2_up (Z.to_nat (nx * ny * nz)) < fuel)%nat ->
  exists lab root nb,
    ongrid_labels nx ny nz data nbs vac mx num_vacuum order fuel L0 = Done lab /\
    dense_labelling root lab nb /\ length root = Z.to_nat (nx * ny * nz) /\
    forall v, in_grid nx ny nz v ->
      (value_at vac v = true -> nth_error root (voxel_number ny nz v) = Some (-1)) /\
      (value_at vac v = false -> exists m, ascends nx ny nz data nbs v m /\ in_grid nx ny nz m /\
         value_at mx m = true /\
         nth_error root (voxel_number ny nz v) = nth_error L0 (voxel_number ny nz m)).
Proof. exact ongrid_correct. Qed.
Print Assumptions C05_ongrid.

Theorem C05_ascent_terminates : forall nx ny nz, 0 < nx -> 0 < ny -> 0 < nz ->
  forall data nbs, (forall s d, In (s, d) nbs -> unit_offset s /\ (0 < d)%Q) ->
  forall v, in_grid nx ny nz v ->
  exists m, ascends nx ny nz data nbs v m /\ in_grid nx ny nz m /\
    locally_highest nx ny nz data (map fst nbs) m /\ (value_at data v <= value_at data m)%Q /\
    (forall m', ascends nx ny nz data nbs v m' -> m' = m).
Proof. exact ascent_terminates. Qed.
Print Assumptions C05_ascent_terminates.

Example C05_ex : ongrid_labels 1 1 4 ex_data ex_nbs ex_vac (reshape false [false; true; true; false] 1 4)
    0 (seq 0 4) 3 [-1; 1; 1; -1] = Done [0; 0; 0; 0].
Proof. reflexivity. Qed.
Example C05_ex2 : ongrid_labels 1 1 4 (reshape 0%Q [2; 9; 1; 7]%Q 1 4) ex_nbs ex_vac
    (reshape false [false; true; false; true] 1 4) 0 (rev (seq 0 4)) 3 [0; 1; 2; 3] = Done [0; 0; 0; 1].
Proof. reflexivity. Qed.

(** ** C06 *)
Theorem C06_dense_labels : forall roots, (forall x, In x roots -> -1 <= x) ->
  dense_labelling roots (compact roots) (length (filter (fun x => negb (x =? -1)) (np_unique roots))) /\
  (forall x, In x (np_unique roots) <-> In x roots) /\ StronglySorted Z.lt (np_unique roots).
Proof. exact compact_full. Qed.
Print Assumptions C06_dense_labels.
Example C06_ex : compact [7; -1; 3; 7; 12] = [1; -1; 0; 1; 2] /\ compact [7; 3; 7] = [1; 0; 1].
Proof. split; reflexivity. Qed.

(** ** C07 *)
Theorem C07_basin_content : forall data labels vol n,
  length labels = length data -> Forall (fun l => l < Z.of_nat n) labels ->
  let r := get_basin_charges_and_volumes data labels vol n in
  let N := inject_Z (Z.of_nat (length data)) in
  length (i_charges r) = n /\ length (i_volumes r) = n /\
  (forall b, (b < n)%nat ->
     (nth b (i_charges r) 0 ==
        qsum (map (fun cl : Q * Z => if snd cl =? Z.of_nat b then fst cl else 0) (combine data labels)) / N)%Q /\
     (nth b (i_volumes r) 0 ==
        qsum (map (fun cl : Q * Z => if snd cl =? Z.of_nat b then 1 else 0) (combine data labels)) * vol / N)%Q) /\
  (i_vcharge r == qsum (map (fun cl : Q * Z => if (snd cl <? 0)%Z then fst cl else 0) (combine data labels)) / N)%Q /\
  (i_vvolume r == qsum (map (fun cl : Q * Z => if (snd cl <? 0)%Z then 1 else 0) (combine data labels)) * vol / N)%Q.
Proof. exact integration_exact. Qed.
Print Assumptions C07_basin_content.

Theorem C07_conservation : forall data labels vol n,
  length labels = length data -> Forall (fun l => l < Z.of_nat n) labels -> data <> [] ->
  let r := get_basin_charges_and_volumes data labels vol n in
  (qsum (i_charges r) + i_vcharge r == qsum data / inject_Z (Z.of_nat (length data)))%Q /\
  (qsum (i_volumes r) + i_vvolume r == vol)%Q.
Proof. exact integration_conserves. Qed.
Print Assumptions C07_conservation.

Example C07_ex : let r := get_basin_charges_and_volumes [4; 8; 2; 2]%Q [0; 1; -1; 0] 10 2 in
  Forall2 Qeq (i_charges r) [3 # 2; 2]%Q /\ (i_vcharge r == 1 # 2)%Q /\
  Forall2 Qeq (i_volumes r) [5; 5 # 2]%Q /\ (i_vvolume r == 5 # 2)%Q.
Proof. repeat (split || constructor). Qed.

(** ** C15 *)
Theorem C15_edges : forall nx ny nz, 0 < nx -> 0 < ny -> 0 < nz ->
  forall lab ts vac order v, covers nx ny nz order -> in_grid nx ny nz v ->
  (forall s, In s ts -> unit_offset s) ->
  nth (voxel_number ny nz v) (get_edges nx ny nz lab ts vac order) false = true <->
  value_at vac v = false /\
  exists s w, In s ts /\ periodic_target nx ny nz v s w /\ value_at vac w = false /\
    value_at lab w <> value_at lab v.
Proof. exact edges_spec. Qed.
Print Assumptions C15_edges.

Theorem C15_feature_edges : forall nx ny nz, 0 < nx -> 0 < ny -> 0 < nz ->
  forall lab fmap ts vac order v, covers nx ny nz order -> in_grid nx ny nz v ->
  (forall s, In s ts -> unit_offset s) ->
  nth (voxel_number ny nz v) (get_feature_edges nx ny nz lab fmap ts vac order) false = true <->
  value_at vac v = false /\
  exists s w, In s ts /\ periodic_target nx ny nz v s w /\ value_at vac w = false /\
    fmap (value_at lab w) <> fmap (value_at lab v).
Proof. exact feature_edges_spec. Qed.
Print Assumptions C15_feature_edges.

Example C15_ex : get_edges 1 1 6 (reshape 0 [0; 0; 0; 1; 1; -1] 1 6) (map fst ex_nbs)
    (reshape false [false; false; false; false; false; true] 1 6) (seq 0 6)
  = [false; false; true; true; false; false].
Proof. reflexivity. Qed.

(** ** C16 *)
Theorem C16_assignment : forall L atoms basins labels charges volumes,
  atoms <> [] -> length charges = length basins -> length volumes = length basins ->
  exists r, assign_basins L atoms basins labels charges volumes = Some r /\
    length (a_basin_atoms r) = length basins /\
    (forall b basin, nth_error basins b = Some basin -> exists a atom,
        nth_error (a_basin_atoms r) b = Some a /\ nth_error atoms a = Some atom /\
        (forall a' atom', nth_error atoms a' = Some atom' ->
           (basin_atom_dist2 L basin atom <= basin_atom_dist2 L basin atom')%Q /\
           ((a' < a)%nat -> (basin_atom_dist2 L basin atom < basin_atom_dist2 L basin atom')%Q))) /\
    length (a_charges r) = length atoms /\ length (a_volumes r) = length atoms /\
    (forall a, (a < length atoms)%nat ->
       (nth a (a_charges r) 0 == qsum (map (fun bw : nat * Q => if Nat.eqb (fst bw) a then snd bw else 0)
            (combine (a_basin_atoms r) charges)))%Q /\
       (nth a (a_volumes r) 0 == qsum (map (fun bw : nat * Q => if Nat.eqb (fst bw) a then snd bw else 0)
            (combine (a_basin_atoms r) volumes)))%Q) /\
    (qsum (a_charges r) == qsum charges)%Q /\ (qsum (a_volumes r) == qsum volumes)%Q /\
    (forall i l, nth_error labels i = Some l ->
       (l = -1 -> nth_error (a_labels r) i = Some (Some (-1))) /\
       (0 <= l < Z.of_nat (length basins) -> exists a, nth_error (a_basin_atoms r) (Z.to_nat l) = Some a /\
            nth_error (a_labels r) i = Some (Some (Z.of_nat a)))).
Proof. exact assign_basins_correct. Qed.
Print Assumptions C16_assignment.

(** In an orthogonal cell the distance used is the distance to the nearest periodic
    image of the atom (positions inside the unit cell). *)
Theorem C16_orthogonal_nearest_image : forall a b c basin atom,
  unit_cell basin -> unit_cell atom ->
  (forall k1 k2 k3, (basin_atom_dist2 (diag a b c) basin atom <= image_dist2 (diag a b c) basin atom k1 k2 k3)%Q) /\
  (exists k1 k2 k3, (basin_atom_dist2 (diag a b c) basin atom == image_dist2 (diag a b c) basin atom k1 k2 k3)%Q).
Proof. exact orthogonal_min_image_full. Qed.
Print Assumptions C16_orthogonal_nearest_image.

(** Finding: in a skewed cell the wrapped distance is not the distance to the
    nearest image, and the basin goes to the wrong atom. *)
Theorem C128_nearest_skewed_refuted : exists L basin atom0 atom1 k1 k2 k3,
  unit_cell basin /\ unit_cell atom0 /\ unit_cell atom1 /\
  basin_atom L [atom0; atom1] basin = Some 1%nat /\
  forall j1 j2 j3, (image_dist2 L basin atom0 k1 k2 k3 < image_dist2 L basin atom1 j1 j2 j3)%Q.
Proof. exact skewed_wrong_atom. Qed.
Print Assumptions C128_nearest_skewed_refuted.

Example C16_ex :
  match assign_basins (diag 4 4 4) [(0, 0, 0); (1#2, 1#2, 1#2)]%Q
     [(9#10, 0, 1#10); (1#2, 4#10, 1#2); (0, 0, 0)]%Q [2; -1; 1] [3; 4; 5]%Q [1; 1; 2]%Q with
  | Some r => a_basin_atoms r = [0; 1; 0]%nat /\ Forall2 Qeq (a_charges r) [8; 4]%Q /\
              a_labels r = [Some 0; Some (-1); Some 1]
  | None => False end.
Proof. vm_compute. repeat split; repeat constructor. Qed.
