(** Candidate connections between basins,
    core/labelers/bifurcation_graph/graph_numba/domain_bifurcations.py lines 13-143
    ([find_domain_connections]).

    Numbers are exact rationals.  [basin_map] holds 16 bit unsigned numbers as in the
    code; its uninitialised entries (read but never used) are 0. *)
From Coq Require Import QArith.
From Verif Require Import Base GridModel NeighModel LabelsModel.
Local Open Scope Z_scope.

(** [min(a, b)] of Python. *)
Definition py_min (a b : Q) : Q := if Qltb b a then b else a.

Section Conn.
Variables nx ny nz : Z.
Variable num : nat.
Variable labels : arr3 Z.
Variable data : arr3 Q.
Variables bif_mask edge_mask vacuum : arr3 bool.
Variable ts : list offset.

(** Lines 59-71 (and 118-126): labels and capped values of the neighbours of [v] that
    belong to another basin. *)
Definition touching (v : Z * Z * Z) : list (Z * Q) :=
  flat_map (fun s =>
    let w := step_to nx ny nz v s in
    if (rd labels w =? rd labels v) || (rd labels w =? -1) then []
    else [(rd labels w, py_min (rd data v) (rd data w))]) ts.

(** Lines 73-76. *)
Definition unique_labels (ls : list Z) : list Z :=
  fold_left (fun acc l => if existsb (Z.eqb l) acc then acc else acc ++ [l]) ls [].

(** Lines 79-85. *)
Definition best_val (l : Z) (nbs : list (Z * Q)) : Q :=
  fold_left (fun best p =>
    if negb (fst p =? l) then best else if Qltb best (snd p) then snd p else best)
    nbs low_start.

Notation record := (Z * Z * Q)%type.

(** Lines 86-92: the records and [found_mask]. *)
Definition add_connection (label : Z) (nbs : list (Z * Q)) (st : list record * list bool)
    (u : Z) : list record * list bool :=
  let '(recs, found) := st in
  (recs ++ [(Z.min u label, Z.max u label, best_val u nbs)],
   upd (upd found (Z.to_nat u) true) (Z.to_nat label) true).

(** Lines 44-92. *)
Definition bif_voxel (st : list record * list bool) (v : Z * Z * Z)
    : list record * list bool :=
  if (negb (rd bif_mask v) || rd vacuum v)%bool then st
  else if rd labels v =? -1 then st
  else
    let nbs := touching v in
    fold_left (add_connection (rd labels v) nbs) (unique_labels (map fst nbs)) st.

Definition first_pass : list record * list bool :=
  fold_left bif_voxel (voxels nx ny nz) ([], repeat false num).

(** Line 95. *)
Definition missing_basins (found : list bool) : list nat :=
  filter (fun b => negb (nth b found false)) (seq 0 num).

(** Lines 100-101. *)
Definition basin_map (missing : list nat) : list Z :=
  fold_left (fun m ib => upd m (snd ib) (Z.of_nat (fst ib) mod 65536))
    (combine (seq 0 (length missing)) missing) (repeat 0 num).

(** Lines 125-127. *)
Definition put_best (row : Z) (m : list (list Q)) (p : Z * Q) : list (list Q) :=
  let r := Z.to_nat row in
  let c := Z.to_nat (fst p) in
  if Qltb (nth c (nth r m []) 0%Q) (snd p) then upd m r (upd (nth r m []) c (snd p)) else m.

(** Lines 103-127. *)
Definition edge_voxel (found : list bool) (bmap : list Z) (m : list (list Q))
    (v : Z * Z * Z) : list (list Q) :=
  if (negb (rd edge_mask v) || rd vacuum v)%bool then m
  else if (rd labels v =? -1) then m
  else if nth (Z.to_nat (rd labels v)) found false then m
  else fold_left (put_best (nth (Z.to_nat (rd labels v)) bmap 0)) (touching v) m.

(** Lines 129-137. *)
Definition row_records (label : nat) (row : list Q) : list record :=
  flat_map (fun c =>
    let q := nth c row 0%Q in
    if Qeq_bool q 0 then []
    else [(Z.min (Z.of_nat c) (Z.of_nat label), Z.max (Z.of_nat c) (Z.of_nat label), q)])
    (seq 0 (length row)).

Definition second_pass (found : list bool) : list record :=
  let missing := missing_basins found in
  match missing with
  | [] => []
  | _ =>
      let m := fold_left (edge_voxel found (basin_map missing)) (voxels nx ny nz)
                 (repeat (repeat 0%Q num) (length missing)) in
      flat_map (fun i => row_records (nth i missing 0%nat) (nth i m []))
        (seq 0 (length missing))
  end.

Definition find_domain_connections : list record :=
  let '(recs, found) := first_pass in recs ++ second_pass found.
End Conn.
