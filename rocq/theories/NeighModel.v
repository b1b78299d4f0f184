(** Neighbour based voxel scans: steepest neighbour, maxima, edges. *)
From Verif Require Import Base GridModel.

(** A neighbour list is [zip(neighbor_transforms, neighbor_dists)]. *)
Definition offset := (Z * Z * Z)%type.

Section Scan.
Variables nx ny nz : Z.

(** Target of a neighbour step, the call of [wrap_point] in
    shared_numba.py lines 76, 134, 225. *)
Definition step_to (v : Z * Z * Z) (s : offset) : Z * Z * Z :=
  let '(i, j, k) := v in let '(si, sj, sk) := s in
  wrap_point (i + si) (j + sj) (k + sk) nx ny nz.

Definition rd {A} (a : arr3 A) (v : Z * Z * Z) : A := let '(i, j, k) := v in a i j k.

(** Body of the loop of [get_best_neighbor], shared_numba.py lines 74-84.
    State: (best, (transform, neighbour)). *)
Definition best_step (data : arr3 Q) (v : Z * Z * Z)
    (st : Q * (offset * (Z * Z * Z))) (nb : offset * Q) : Q * (offset * (Z * Z * Z)) :=
  let '(s, dist) := nb in
  let t := step_to v s in
  let diff := ((rd data t - rd data v) / dist)%Q in
  if Qltb (fst st) diff then (diff, (s, t)) else st.

(** [get_best_neighbor], shared_numba.py lines 24-90.  Returns
    (best_transform, best_neigh). *)
Definition get_best_neighbor (data : arr3 Q) (v : Z * Z * Z) (nbs : list (offset * Q))
    : offset * (Z * Z * Z) :=
  snd (fold_left (best_step data v) nbs (0%Q, ((0, 0, 0), v))).

(** The [for ... break] loop over neighbours in [get_maxima],
    shared_numba.py lines 221-233. *)
Fixpoint is_max_loop (data : arr3 Q) (use_minima : bool) (v : Z * Z * Z)
    (ts : list offset) : bool :=
  match ts with
  | [] => true
  | s :: rest =>
      let t := step_to v s in
      if negb use_minima then
        if Qltb (rd data v) (rd data t) then false else is_max_loop data use_minima v rest
      else
        if Qltb (rd data t) (rd data v) then false else is_max_loop data use_minima v rest
  end.

(** One cell of the mask written by [get_maxima], shared_numba.py lines 217-235.
    The mask starts as all False (line 211). *)
Definition maxima_cell (data : arr3 Q) (ts : list offset) (vac : arr3 bool)
    (use_minima : bool) (v : Z * Z * Z) : bool :=
  if rd vac v then false else is_max_loop data use_minima v ts.

(** The [for ... break] loop over neighbours in [get_edges],
    shared_numba.py lines 132-143. *)
Fixpoint edge_loop (lab : arr3 Z) (vac : arr3 bool) (v : Z * Z * Z) (ts : list offset) : bool :=
  match ts with
  | [] => false
  | s :: rest =>
      let t := step_to v s in
      if negb (rd lab t =? rd lab v) && negb (rd vac t) then true
      else edge_loop lab vac v rest
  end.

(** One cell of the mask written by [get_edges], shared_numba.py lines 125-143. *)
Definition edge_cell (lab : arr3 Z) (ts : list offset) (vac : arr3 bool)
    (v : Z * Z * Z) : bool :=
  if rd vac v then false else edge_loop lab vac v ts.

(** The neighbour loop of [get_feature_edges], elf_labeler_numba.py lines 53-69.
    [fmap] is the array [feature_map]; reading it at the vacuum label -1 returns
    numpy's last element, which is irrelevant because such a neighbour fails the
    vacuum test. *)
Fixpoint feature_edge_loop (lab : arr3 Z) (fmap : Z -> Z) (vac : arr3 bool)
    (feature : Z) (v : Z * Z * Z) (ts : list offset) : bool :=
  match ts with
  | [] => false
  | s :: rest =>
      let t := step_to v s in
      let neigh_feature := fmap (rd lab t) in
      if negb (neigh_feature =? feature) && negb (rd vac t) then true
      else feature_edge_loop lab fmap vac feature v rest
  end.

(** One cell of [get_feature_edges], elf_labeler_numba.py lines 46-69. *)
Definition feature_edge_cell (lab : arr3 Z) (fmap : Z -> Z) (ts : list offset)
    (vac : arr3 bool) (v : Z * Z * Z) : bool :=
  if rd vac v then false
  else feature_edge_loop lab fmap vac (fmap (rd lab v)) v ts.

(** Flat index of a voxel and back (coords_to_flat / flat_to_coords applied with
    [ny_nz = ny*nz]). *)
Definition flat (v : Z * Z * Z) : Z :=
  let '(i, j, k) := v in coords_to_flat i j k (ny * nz) nz.
Definition unflat (idx : Z) : Z * Z * Z := flat_to_coords idx (ny * nz) nz.

(** The [prange] triple loops of [get_maxima] (lines 213-235) and [get_edges]
    (lines 123-143) writing the flat (C-order) mask, executed in the order
    [order] of flat voxel numbers: a cell is written [True] or left [False]. *)
Definition mask_loop (cell : Z * Z * Z -> bool) (order : list nat) : list bool :=
  par_loop (fun idx => if cell (unflat (Z.of_nat idx)) then Some true else None)
           order (repeat false (Z.to_nat (nx * ny * nz))).

Definition get_maxima (data : arr3 Q) (ts : list offset) (vac : arr3 bool)
    (use_minima : bool) (order : list nat) : list bool :=
  mask_loop (maxima_cell data ts vac use_minima) order.

Definition get_edges (lab : arr3 Z) (ts : list offset) (vac : arr3 bool)
    (order : list nat) : list bool :=
  mask_loop (edge_cell lab ts vac) order.

Definition get_feature_edges (lab : arr3 Z) (fmap : Z -> Z) (ts : list offset)
    (vac : arr3 bool) (order : list nat) : list bool :=
  mask_loop (feature_edge_cell lab fmap ts vac) order.

(** [np.argwhere(mask)], base.py lines 199-201: the True voxels in C order. *)
Definition argwhere (mask : list bool) : list (Z * Z * Z) :=
  map (fun idx => unflat (Z.of_nat idx))
      (filter (fun idx => nth idx mask false) (seq 0 (Z.to_nat (nx * ny * nz)))).
End Scan.

