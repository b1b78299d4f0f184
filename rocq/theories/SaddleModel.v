(** Saddle points, core/labelers/bifurcation_graph/graph_numba/bifurcation_base.py lines 78-330.

    Integers are unbounded ([np.uint8], [np.uint16] and [np.int8] hold all numbers that occur:
    at most 124 and between -2 and 2).  Values are exact. *)
From Coq Require Import QArith.
From Verif Require Import Base GridModel NeighModel RootsModel UnionModel.
Local Open Scope Z_scope.

(** [trans_to_idx], lines 83-85. *)
Definition trans_to_idx (s : Z * Z * Z) (size : Z) : Z :=
  let '(i, j, k) := s in let r := size * 2 + 1 in (i + size) * (r ^ 2) + (j + size) * r + (k + size).
(** [shift_to_index] and [index_to_shift], lines 89-100. *)
Definition shift_to_index (c : Z * Z * Z) : Z := let '(cx, cy, cz) := c in (cx + 2) * 25 + (cy + 2) * 5 + (cz + 2).
Definition index_to_shift (index : Z) : Z * Z * Z := (index / 25 - 2, index mod 25 / 5 - 2, index mod 5 - 2).

(** [range(-size, size + 1)] three times, in the order of the loops. *)
Definition srange (size : Z) : list Z := map (fun i => i - size) (zrange (2 * size + 1)).
Definition box (size : Z) : list (Z * Z * Z) :=
  flat_map (fun i => flat_map (fun j => map (fun k => (i, j, k)) (srange size)) (srange size)) (srange size).
(** Lines 108-132: the connections of one point [s]. *)
Definition point_connections (size : Z) (s : Z * Z * Z) : list (Z * Z) :=
  let '(i, j, k) := s in
  let idx := trans_to_idx s size in
  flat_map (fun '(ni, nj, nk) =>
    if (ni =? 0) && (nj =? 0) && (nk =? 0) then []
    else let si := i + ni in let sj := j + nj in let sk := k + nk in
      if (size <? Z.abs si) || (size <? Z.abs sj) || (size <? Z.abs sk) then []
      else let neigh_idx := trans_to_idx (si, sj, sk) size in
        if neigh_idx <? idx then [] else [(idx, neigh_idx)]) (box 1).
(** [get_connections_in_box], lines 103-138. *)
Definition get_connections_in_box (size : Z) : list (Z * Z * Z) * list (Z * Z) :=
  (box size, flat_map (point_connections size) (box size)).

Definition count_true (l : list bool) : nat := length (filter (fun b => b) l).

Section Check.
Variable nx ny nz : Z.
Variable data : arr3 Q.
Variable vac : arr3 bool.
Variable greater : bool.

(** The voxel at an offset from [(i, j, k)]. *)
Definition at_shift {A} (a : arr3 A) (p s : Z * Z * Z) : A :=
  let '(i, j, k) := p in let '(si, sj, sk) := s in
  let '(ni, nj, nk) := wrap_point (i + si) (j + sj) (k + sk) nx ny nz in a ni nj nk.

(** Lines 175, 234: the side of the value that counts. *)
Definition beyond (neigh value : Q) : bool := if greater then Qltb value neigh else Qltb neigh value.

(** Lines 164-182: [inl r] returns, [inr (mask, no_same)] goes on. *)
Fixpoint mark3 (p : Z * Z * Z) (value : Q) (idx : nat) (shifts : list (Z * Z * Z)) (mask : list bool) : bool + (list bool * bool) :=
  match shifts with
  | [] => inr (mask, true)
  | s :: rest =>
      if Nat.eqb idx 13 then mark3 p value (S idx) rest mask
      else if at_shift vac p s then inl false
      else let neigh := at_shift data p s in
        if beyond neigh value then mark3 p value (S idx) rest (upd mask idx true)
        else if Qeq_bool neigh value then inr (mask, false)
        else mark3 p value (S idx) rest mask
  end.
(** The connections whose two ends satisfy [f], as pairs of list positions. *)
Definition pick (f : nat -> nat -> bool) (conns : list (Z * Z)) : list (nat * nat) :=
  filter (fun '(a, b) => f a b) (map (fun '(a, b) => (Z.to_nat a, Z.to_nat b)) conns).

(** [check_if_possible_saddle], lines 141-203. *)
Definition check_if_possible_saddle (fuel : nat) (p : Z * Z * Z) (value : Q) (shifts : list (Z * Z * Z)) (conns : list (Z * Z)) : outcome bool :=
  match mark3 p value 0 shifts (repeat false 27) with
  | inl r => Done r
  | inr (_, false) => Done true
  | inr (mask, true) =>
      obind (run_mask fuel (pick (fun a b => nth a mask false && nth b mask false) conns) (map Z.of_nat (seq 0 27)) mask) (fun '(_, roots) =>
      Done (Nat.ltb 1 (count_true roots)))
  end.

(** Lines 228-240: 2 beyond the value, 1 equal to it, 0 otherwise or in the vacuum. *)
Definition kind (p : Z * Z * Z) (value : Q) (s : Z * Z * Z) : nat :=
  if at_shift vac p s then 0%nat
  else let neigh := at_shift data p s in if beyond neigh value then 2%nat else if Qeq_bool neigh value then 1%nat else 0%nat.
(** [check_if_saddle], lines 206-267. *)
Definition check_if_saddle (fuel : nat) (p : Z * Z * Z) (value : Q) (shifts : list (Z * Z * Z)) (conns : list (Z * Z)) : outcome bool :=
  let mask := map (kind p value) shifts in
  let type a b := Nat.min (nth a mask 0%nat) (nth b mask 0%nat) in
  obind (run_mask fuel (pick (fun a b => Nat.eqb (type a b) 2) conns) (map Z.of_nat (seq 0 125)) (map (fun m => Nat.eqb m 2) mask)) (fun '(parents, roots) =>
  let n_exclude := count_true roots in
  obind (run_mask fuel (pick (fun a b => Nat.eqb (type a b) 1) conns) parents roots) (fun '(_, roots') =>
  let n_include := count_true roots' in
  Done (negb (Nat.eqb n_exclude n_include)))).

(** [find_potential_saddle_points], lines 270-330, at one voxel; every iteration of the parallel loop writes
    only its own voxels. *)
Definition saddle_at (fuel : nat) (edge : arr3 bool) (p : Z * Z * Z) : outcome bool :=
  let '(i, j, k) := p in
  if negb (edge i j k) || vac i j k then Done false
  else
    let value := data i j k in
    let '(trans3, conns3) := get_connections_in_box 1 in
    let '(trans5, conns5) := get_connections_in_box 2 in
    obind (check_if_possible_saddle fuel p value trans3 conns3) (fun possible =>
    if possible then check_if_saddle fuel p value trans5 conns5 else Done false).
End Check.
