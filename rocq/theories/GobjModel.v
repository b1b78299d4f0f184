(** The [Grid] object, core/toolkit/grid.py: construction (lines 89-154), setters, cached quantities
    (lines 220-502), [make_supercell], [copy], [regrid], [split_to_spin] and [linear_add].

    The structure is its lattice matrix; augmentation data are lists of numbers.  [spline] is
    [scipy.ndimage.spline_filter], [zoom] is [scipy.ndimage.zoom] to a given shape, [root] the square root.
    Arrays are added only when their shapes agree (no broadcasting of axes of length one). *)
From Coq Require Import QArith Qround Qabs.
From Verif Require Import Base GridModel ChargeModel NearModel RefineModel PlaneModel CoordModel.
Local Open Scope Z_scope.

Inductive key := Total | Diff | DiffX | DiffY | DiffZ.
Definition key_eqb (a b : key) : bool :=
  match a, b with Total, Total | Diff, Diff | DiffX, DiffX | DiffY, DiffY | DiffZ, DiffZ => true | _, _ => false end.
Inductive dtype := Charge | Elf.
Inductive format := Vasp | Cube | Hdf5.

Record arr := Arr { a_shape : Z * Z * Z; a_at : Z -> Z -> Z -> Q }.
Definition size_of (s : Z * Z * Z) : Z := let '(x, y, z) := s in x * y * z.
Definition a_map (f : Q -> Q) (a : arr) : arr := Arr (a_shape a) (fun i j k => f (a_at a i j k)).
Definition shape_eqb (s t : Z * Z * Z) : bool := let '(x, y, z) := s in let '(x', y', z') := t in (x =? x') && (y =? y') && (z =? z').
Definition a_zip (f : Q -> Q -> Q) (a b : arr) : option arr :=
  if shape_eqb (a_shape a) (a_shape b) then Some (Arr (a_shape a) (fun i j k => f (a_at a i j k) (a_at b i j k))) else None.

(** Python dictionaries keep the order of insertion. *)
Fixpoint lookup {A} (k : key) (d : list (key * A)) : option A :=
  match d with [] => None | (k', v) :: t => if key_eqb k k' then Some v else lookup k t end.
Fixpoint assign {A} (k : key) (v : A) (d : list (key * A)) : list (key * A) :=
  match d with [] => [(k, v)] | (k', v') :: t => if key_eqb k k' then (k', v) :: t else (k', v') :: assign k v t end.

Record grid := Grid {
  g_matrix : mat;
  g_data : list (key * arr);
  g_aug : list (key * list Q);
  g_format : format;
  g_type : dtype;
  g_polarized : bool;
  g_soc : bool;
  g_ngridpts : Z;
  g_spin : option (arr * arr);
  g_coeffs : option arr;
  g_neigh : option (list Q);
  g_indices : option (list (Z * Z * Z));
  g_flat : option (list Z);
  g_dists : option (list Q);
  g_far : option Q;
  g_images : option (option (list (Z * Z * Z))) }.

Section Object.
Variable spline : arr -> arr.
Variable zoom : (Z * Z * Z) -> arr -> arr.
Variable root : Q -> Q.

Definition a_max (a : arr) : Q := let '(x, y, z) := a_shape a in match map (fun '(i, j, k) => a_at a i j k) (voxels x y z) with [] => 0%Q | q :: l => fold_left qmax l q end.
Definition a_min (a : arr) : Q := (- a_max (a_map Qopp a))%Q.

(** Lines 89-145: [None] is the [KeyError] of line 111.  The data type is guessed from the range when not given. *)
Definition make_grid (matrix : mat) (data : list (key * arr)) (aug : list (key * list Q)) (fmt : format) (ty : option dtype) : option grid :=
  match lookup Total data with
  | None => None
  | Some t =>
      let ty := match ty with Some ty => ty | None => if Qle_bool (a_max t) 1 && Qle_bool 0 (a_min t) then Elf else Charge end in
      Some (Grid matrix data aug fmt ty (Nat.leb 2 (length data)) (Nat.leb 4 (length data)) (size_of (a_shape t)) None None None None None None None None)
  end.

(** Lines 147-154. *)
Definition reset_cache (g : grid) : grid :=
  Grid (g_matrix g) (g_data g) (g_aug g) (g_format g) (g_type g) (g_polarized g) (g_soc g) (g_ngridpts g) (g_spin g) (g_coeffs g) (g_neigh g) None None None None None.
Definition with_data (d : list (key * arr)) (g : grid) : grid :=
  Grid (g_matrix g) d (g_aug g) (g_format g) (g_type g) (g_polarized g) (g_soc g) (g_ngridpts g) (g_spin g) (g_coeffs g) (g_neigh g) (g_indices g) (g_flat g) (g_dists g) (g_far g) (g_images g).
Definition with_matrix (m : mat) (g : grid) : grid :=
  Grid m (g_data g) (g_aug g) (g_format g) (g_type g) (g_polarized g) (g_soc g) (g_ngridpts g) (g_spin g) (g_coeffs g) (g_neigh g) (g_indices g) (g_flat g) (g_dists g) (g_far g) (g_images g).
Definition with_aug (a : list (key * list Q)) (g : grid) : grid :=
  Grid (g_matrix g) (g_data g) a (g_format g) (g_type g) (g_polarized g) (g_soc g) (g_ngridpts g) (g_spin g) (g_coeffs g) (g_neigh g) (g_indices g) (g_flat g) (g_dists g) (g_far g) (g_images g).

(** Lines 156-205. *)
Definition no_arr : arr := Arr (0, 0, 0) (fun _ _ _ => 0%Q).
Definition total (g : grid) : arr := match lookup Total (g_data g) with Some a => a | None => no_arr end.
Definition diff (g : grid) : option arr := lookup Diff (g_data g).
Definition set_total (a : arr) (g : grid) : grid := reset_cache (with_data (assign Total a (g_data g)) g).
Definition set_diff (a : arr) (g : grid) : grid := reset_cache (with_data (assign Diff a (g_data g)) g).
Definition shape (g : grid) : Z * Z * Z := a_shape (total g).

(** ** Quantities computed from the current data *)
(** Lines 220-249. *)
Definition indices_of (s : Z * Z * Z) : list (Z * Z * Z) := let '(x, y, z) := s in voxels x y z.
Definition flat_of (s : Z * Z * Z) : list Z := map Z.of_nat (seq 0 (Z.to_nat (size_of s))).
(** Lines 261-290. *)
Definition mega : Z := 1000000.
Definition round6 (q : Q) : Q := (inject_Z (py_round (q * inject_Z mega)) / inject_Z mega)%Q.
Definition corners (m : mat) : list vec :=
  let '(a, b, c) := m in [(0, 0, 0)%Q; a; b; c; vadd a b; vadd a c; vadd b c; vadd (vadd a b) c].
Definition qmin_list (l : list Q) : Q := match l with [] => 0%Q | q :: t => fold_left qmin t q end.
Definition dists_of (m : mat) (s : Z * Z * Z) : list Q :=
  let '(x, y, z) := s in
  map (fun v => qmin_list (map (fun c => round6 (root (norm2 (vsub v c)))) (corners m))) (grid_to_cart x y z m (map qvec (indices_of s))).
Definition far_of (m : mat) (s : Z * Z * Z) : Q := let '(x, y, z) := s in max_point_dist x y z m root.
Definition images_of (s : Z * Z * Z) : option (list (Z * Z * Z)) := let '(x, y, z) := s in grid_neighbor_transforms x y z.
Definition neigh_of (m : mat) (s : Z * Z * Z) : list Q := let '(x, y, z) := s in point_neighbor_dists x y z m root.

(** ** Cached reads: the value and the object afterwards *)
Definition read_indices (g : grid) : list (Z * Z * Z) * grid :=
  match g_indices g with
  | Some v => (v, g)
  | None => let v := indices_of (shape g) in
      (v, Grid (g_matrix g) (g_data g) (g_aug g) (g_format g) (g_type g) (g_polarized g) (g_soc g) (g_ngridpts g) (g_spin g) (g_coeffs g) (g_neigh g) (Some v) (g_flat g) (g_dists g) (g_far g) (g_images g))
  end.
Definition read_flat (g : grid) : list Z * grid :=
  match g_flat g with
  | Some v => (v, g)
  | None => let v := flat_of (shape g) in
      (v, Grid (g_matrix g) (g_data g) (g_aug g) (g_format g) (g_type g) (g_polarized g) (g_soc g) (g_ngridpts g) (g_spin g) (g_coeffs g) (g_neigh g) (g_indices g) (Some v) (g_dists g) (g_far g) (g_images g))
  end.
(** Line 272 reads [grid_indices]. *)
Definition read_dists (g : grid) : list Q * grid :=
  match g_dists g with
  | Some v => (v, g)
  | None =>
      let '(ix, g) := read_indices g in
      let '(x, y, z) := shape g in
      let v := map (fun v => qmin_list (map (fun c => round6 (root (norm2 (vsub v c)))) (corners (g_matrix g)))) (grid_to_cart x y z (g_matrix g) (map qvec ix)) in
      (v, Grid (g_matrix g) (g_data g) (g_aug g) (g_format g) (g_type g) (g_polarized g) (g_soc g) (g_ngridpts g) (g_spin g) (g_coeffs g) (g_neigh g) (g_indices g) (g_flat g) (Some v) (g_far g) (g_images g))
  end.
Definition read_far (g : grid) : Q * grid :=
  match g_far g with
  | Some v => (v, g)
  | None => let v := far_of (g_matrix g) (shape g) in
      (v, Grid (g_matrix g) (g_data g) (g_aug g) (g_format g) (g_type g) (g_polarized g) (g_soc g) (g_ngridpts g) (g_spin g) (g_coeffs g) (g_neigh g) (g_indices g) (g_flat g) (g_dists g) (Some v) (g_images g))
  end.
Definition read_images (g : grid) : option (list (Z * Z * Z)) * grid :=
  match g_images g with
  | Some v => (v, g)
  | None => let v := images_of (shape g) in
      (v, Grid (g_matrix g) (g_data g) (g_aug g) (g_format g) (g_type g) (g_polarized g) (g_soc g) (g_ngridpts g) (g_spin g) (g_coeffs g) (g_neigh g) (g_indices g) (g_flat g) (g_dists g) (g_far g) (Some v))
  end.
(** Lines 251-259. *)
Definition read_coeffs (g : grid) : arr * grid :=
  match g_coeffs g with
  | Some v => (v, g)
  | None => let v := spline (total g) in
      (v, Grid (g_matrix g) (g_data g) (g_aug g) (g_format g) (g_type g) (g_polarized g) (g_soc g) (g_ngridpts g) (g_spin g) (Some v) (g_neigh g) (g_indices g) (g_flat g) (g_dists g) (g_far g) (g_images g))
  end.
(** Lines 412-430, a [cached_property]. *)
Definition read_neigh (g : grid) : list Q * grid :=
  match g_neigh g with
  | Some v => (v, g)
  | None => let v := neigh_of (g_matrix g) (shape g) in
      (v, Grid (g_matrix g) (g_data g) (g_aug g) (g_format g) (g_type g) (g_polarized g) (g_soc g) (g_ngridpts g) (g_spin g) (g_coeffs g) (Some v) (g_indices g) (g_flat g) (g_dists g) (g_far g) (g_images g))
  end.
(** pymatgen's [VolumetricData.spin_data]: spin up and spin down, stored at the first read.  [None]: shapes differ. *)
Definition spin_of (g : grid) : option (arr * arr) :=
  match diff g with
  | None => Some (a_map (fun t => (1 # 2) * t)%Q (total g), a_map (fun t => (1 # 2) * t)%Q (total g))
  | Some d =>
      match a_zip (fun t d => (1 # 2) * (t + d))%Q (total g) d, a_zip (fun t d => (1 # 2) * (t - d))%Q (total g) d with
      | Some u, Some w => Some (u, w) | _, _ => None end
  end.
Definition read_spin (g : grid) : option (arr * arr) * grid :=
  match g_spin g with
  | Some v => (Some v, g)
  | None =>
      match spin_of g with
      | None => (None, g)
      | Some v => (Some v, Grid (g_matrix g) (g_data g) (g_aug g) (g_format g) (g_type g) (g_polarized g) (g_soc g) (g_ngridpts g) (Some v) (g_coeffs g) (g_neigh g) (g_indices g) (g_flat g) (g_dists g) (g_far g) (g_images g))
      end
  end.

(** Lines 292-303 and 490-502; the volume of the structure is [|det|]. *)
Definition volume (m : mat) : Q := Qabs (det3 m).
Definition point_volume (g : grid) : Q := (volume (g_matrix g) / inject_Z (g_ngridpts g))%Q.
Definition grid_resolution (g : grid) : Q := (inject_Z (g_ngridpts g) / volume (g_matrix g))%Q.

(** ** [make_supercell], lines 693-744, with [_tile_data] *)
(** Lines 693-698; [None]: [np.concatenate] of an empty list. *)
Definition tile_data (f : Z * Z * Z) (a : arr) : option arr :=
  let '(x, y, z) := f in let '(nx, ny, nz) := a_shape a in
  if (1 <=? x) && (1 <=? y) && (1 <=? z) then Some (Arr (x * nx, y * ny, z * nz) (fun i j k => a_at a (i mod nx) (j mod ny) (k mod nz))) else None.
(** [bool(array)]; [None] is the [ValueError] of arrays with more than one element. *)
Definition truth (a : option arr) : option bool :=
  match a with None => Some false | Some a => if size_of (a_shape a) =? 1 then Some (negb (Qeq_bool (a_at a 0 0 0) 0)) else None end.
Definition scale_matrix (f : Z * Z * Z) (m : mat) : mat :=
  let '(x, y, z) := f in let '(a, b, c) := m in (vmap (fun q => inject_Z x * q)%Q a, vmap (fun q => inject_Z y * q)%Q b, vmap (fun q => inject_Z z * q)%Q c).
(** The object afterwards and whether an exception was raised. *)
Definition make_supercell (f : Z * Z * Z) (g : grid) : grid * bool :=
  match tile_data f (total g) with
  | None => (g, true)
  | Some t =>
      let g := set_total t g in
      match truth (diff g) with
      | None => (g, true)
      | Some b =>
          let g := match b, diff g with
                   | true, Some d => match tile_data f d with Some d' => set_diff d' g | None => g end
                   | _, _ => g end in
          (with_matrix (scale_matrix f (g_matrix g)) g, false)
      end
  end.

(** ** New objects *)
(** Lines 847-864. *)
Definition copy (g : grid) : option grid := make_grid (g_matrix g) (g_data g) (g_aug g) (g_format g) (Some (g_type g)).
(** Lines 866-914, the new shape being given: the data type and format are the defaults of the constructor. *)
Definition regrid (s : Z * Z * Z) (g : grid) : option grid :=
  make_grid (g_matrix g) (map (fun '(k, a) => (k, zoom s a)) (g_data g)) [] Vasp (Some Charge).
(** Lines 916-980: [None] stands for an exception. *)
Definition split_to_spin (g : grid) : option (grid * grid) * grid :=
  if negb (g_polarized g) || g_soc g then (None, g)
  else
    let '(parts, g) := match g_type g with
                       | Elf => (match diff g with Some d => Some (total g, d) | None => None end, g)
                       | Charge => read_spin g end in
    match parts with
    | None => (None, g)
    | Some (up, down) =>
        let aug_up := match lookup Total (g_aug g) with Some a => [(Total, a)] | None => [] end in
        let aug_down := match lookup Diff (g_aug g) with Some a => [(Total, a)] | None => [] end in
        match make_grid (g_matrix g) [(Total, up)] aug_up (g_format g) (Some (g_type g)), make_grid (g_matrix g) [(Total, down)] aug_down (g_format g) (Some (g_type g)) with
        | Some u, Some d => (Some (u, d), g) | _, _ => (None, g) end
    end.
(** Lines 1078-1112: [None] stands for an exception. *)
Fixpoint keys_eqb (a b : list key) : bool :=
  match a, b with [], [] => true | x :: a, y :: b => key_eqb x y && keys_eqb a b | _, _ => false end.
Fixpoint add_data (s : Q) (other : list (key * arr)) (d : list (key * arr)) : option (list (key * arr)) :=
  match d with
  | [] => Some []
  | (k, a) :: t =>
      match lookup k other with
      | None => None
      | Some b => match a_zip (fun p q => p + s * q)%Q a b, add_data s other t with Some c, Some r => Some ((k, c) :: r) | _, _ => None end
      end
  end.
Definition linear_add (other : grid) (s : Q) (g : grid) : option grid :=
  if keys_eqb (map fst (g_data g)) (map fst (g_data other))
  then match add_data s (g_data other) (g_data g) with Some d => Some (with_aug [] (with_data d g)) | None => None end
  else None.

(** ** Histories of one object; the results of [copy], [regrid] and [linear_add] replace it *)
Inductive op :=
| SetTotal (a : arr) | SetDiff (a : arr) | Supercell (f : Z * Z * Z) | Copy | Regrid (s : Z * Z * Z) | Add (other : grid) (s : Q)
| ReadIndices | ReadFlat | ReadDists | ReadFar | ReadImages | ReadCoeffs | ReadNeigh | Split.
Definition or_same (o : option grid) (g : grid) : grid := match o with Some g' => g' | None => g end.
Definition step (g : grid) (o : op) : grid :=
  match o with
  | SetTotal a => set_total a g
  | SetDiff a => set_diff a g
  | Supercell f => fst (make_supercell f g)
  | Copy => or_same (copy g) g
  | Regrid s => or_same (regrid s g) g
  | Add other s => or_same (linear_add other s g) g
  | ReadIndices => snd (read_indices g)
  | ReadFlat => snd (read_flat g)
  | ReadDists => snd (read_dists g)
  | ReadFar => snd (read_far g)
  | ReadImages => snd (read_images g)
  | ReadCoeffs => snd (read_coeffs g)
  | ReadNeigh => snd (read_neigh g)
  | Split => snd (split_to_spin g)
  end.
Definition run (g : grid) (os : list op) : grid := fold_left step os g.
End Object.
