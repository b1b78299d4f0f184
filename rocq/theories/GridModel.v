(** Voxel indexing: periodic wrapping and flat indices.
    Python integers are unbounded here; numba uses int64 (no overflow modelled). *)
From Verif Require Import Base.

(** One axis of [wrap_point], utilities/basic.py lines 54-57 (58-61, 62-65):
    a single if/elif, not a modulo. *)
Definition wrap1 (i n : Z) : Z :=
  if n <=? i then i - n else if i <? 0 then i + n else i.

(** [wrap_point], utilities/basic.py lines 25-66. *)
Definition wrap_point (i j k nx ny nz : Z) : Z * Z * Z :=
  (wrap1 i nx, wrap1 j ny, wrap1 k nz).

(** One axis of [wrap_point_w_shift], utilities/basic.py lines 72-78. *)
Definition wrap1_shift (i n : Z) : Z * Z :=
  if n <=? i then (i - n, 1) else if i <? 0 then (i + n, -1) else (i, 0).

(** [wrap_point_w_shift], utilities/basic.py lines 70-91. *)
Definition wrap_point_w_shift (i j k nx ny nz : Z) : (Z * Z * Z) * (Z * Z * Z) :=
  let '(i', si) := wrap1_shift i nx in
  let '(j', sj) := wrap1_shift j ny in
  let '(k', sk) := wrap1_shift k nz in
  ((i', j', k'), (si, sj, sk)).

(** [flat_to_coords], utilities/basic.py lines 95-99 (Python // and % are Coq's
    [Z.div] and [Z.modulo] for positive divisors). *)
Definition flat_to_coords (idx ny_nz nz : Z) : Z * Z * Z :=
  (idx / ny_nz, (idx mod ny_nz) / nz, idx mod nz).

(** [coords_to_flat], utilities/basic.py lines 103-104. *)
Definition coords_to_flat (i j k ny_nz nz : Z) : Z := i * ny_nz + j * nz + k.

(** Read-only 3D arrays are functions of the voxel indices; only in-range reads
    occur (theorem [C01_neighbour_in_range]). *)
Definition arr3 (A : Type) := Z -> Z -> Z -> A.

(** A flat (C-order) array seen as a 3D array: [a.reshape(shape)[i,j,k]]. *)
Definition reshape {A} (d : A) (l : list A) (ny nz : Z) : arr3 A :=
  fun i j k => nth (Z.to_nat (coords_to_flat i j k (ny * nz) nz)) l d.

(** All voxels in the order of the triple loop
    [for i in range(nx): for j in range(ny): for k in range(nz)]. *)
Definition voxels (nx ny nz : Z) : list (Z * Z * Z) :=
  flat_map (fun i => flat_map (fun j => map (fun k => (i, j, k)) (zrange nz)) (zrange ny))
           (zrange nx).

Definition in_grid (nx ny nz : Z) (v : Z * Z * Z) : Prop :=
  let '(i, j, k) := v in 0 <= i < nx /\ 0 <= j < ny /\ 0 <= k < nz.
