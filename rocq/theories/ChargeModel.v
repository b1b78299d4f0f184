(** Integration of charges and volumes, assignment of basins to atoms. *)
From Verif Require Import Base.

(** [a[b] += x] for a non-negative index. *)
Definition add_at (acc : list Q) (b : nat) (x : Q) : list Q :=
  upd acc b (nth b acc 0 + x)%Q.

(** Loop state of [get_basin_charges_and_volumes]. *)
Record integ := { i_charges : list Q; i_volumes : list Q; i_vcharge : Q; i_vvolume : Q }.

(** Body of the triple loop, shared_numba.py lines 165-172. *)
Definition integ_step (st : integ) (cl : Q * Z) : integ :=
  let '(charge, label) := cl in
  if label <? 0
  then {| i_charges := i_charges st; i_volumes := i_volumes st;
          i_vcharge := (i_vcharge st + charge)%Q; i_vvolume := (i_vvolume st + 1)%Q |}
  else {| i_charges := add_at (i_charges st) (Z.to_nat label) charge;
          i_volumes := add_at (i_volumes st) (Z.to_nat label) 1;
          i_vcharge := i_vcharge st; i_vvolume := i_vvolume st |}.

(** [get_basin_charges_and_volumes], shared_numba.py lines 148-178.  [data] and
    [labels] are the flat (C-order) arrays, visited in order.  Labels are assumed
    below [maxima_num] (numba does no bounds check); exact rationals. *)
Definition get_basin_charges_and_volumes (data : list Q) (labels : list Z)
    (cell_volume : Q) (maxima_num : nat) : integ :=
  let total := inject_Z (Z.of_nat (length data)) in
  let st := fold_left integ_step (combine data labels)
     {| i_charges := repeat 0%Q maxima_num; i_volumes := repeat 0%Q maxima_num;
        i_vcharge := 0%Q; i_vvolume := 0%Q |} in
  {| i_charges := map (fun c => (c / total)%Q) (i_charges st);
     i_volumes := map (fun v => (v * cell_volume / total)%Q) (i_volumes st);
     i_vcharge := (i_vcharge st / total)%Q;
     i_vvolume := (i_vvolume st * cell_volume / total)%Q |}.

(** ** Atom assignment *)

(** [np.argmin]: index of the first smallest element; [None] (ValueError) on an
    empty sequence. *)
Fixpoint argmin_from (best : Q) (bi : nat) (i : nat) (l : list Q) : nat :=
  match l with
  | [] => bi
  | x :: t => if Qltb x best then argmin_from x i (S i) t else argmin_from best bi (S i) t
  end.
Definition argmin (l : list Q) : option nat :=
  match l with [] => None | x :: t => Some (argmin_from x 0 1 t) end.

(** Minimum-image wrapping of one fractional difference, bader.py lines 752-754:
    two consecutive in-place updates, the second sees the result of the first. *)
Definition wrap_diff (d : Q) : Q :=
  let d1 := if Qle_bool d (-1 # 2) then (d + 1)%Q else d in
  if Qle_bool (1 # 2) d1 then (d1 - 1)%Q else d1.

Definition vec := (Q * Q * Q)%type.
Definition mat := (vec * vec * vec)%type.

Definition vsub (a b : vec) : vec :=
  let '(a1, a2, a3) := a in let '(b1, b2, b3) := b in ((a1 - b1)%Q, (a2 - b2)%Q, (a3 - b3)%Q).
Definition vmap (f : Q -> Q) (a : vec) : vec := let '(a1, a2, a3) := a in (f a1, f a2, f a3).

(** Row vector times row matrix, [einsum("bij,jk->bik", diffs, L)], bader.py line 757. *)
Definition vmat (d : vec) (m : mat) : vec :=
  let '(d1, d2, d3) := d in
  let '((a1, a2, a3), (b1, b2, b3), (c1, c2, c3)) := m in
  ((d1 * a1 + d2 * b1 + d3 * c1)%Q, (d1 * a2 + d2 * b2 + d3 * c2)%Q,
   (d1 * a3 + d2 * b3 + d3 * c3)%Q).

Definition norm2 (v : vec) : Q := let '(x, y, z) := v in (x * x + y * y + z * z)%Q.

(** Squared distance between a basin maximum and an atom, bader.py lines 752-758
    (the code takes the square root; the order of distances is unchanged). *)
Definition basin_atom_dist2 (L : mat) (basin atom : vec) : Q :=
  norm2 (vmat (vmap wrap_diff (vsub atom basin)) L).

(** [np.argmin(dists, axis=1)], bader.py line 761. *)
Definition basin_atom (L : mat) (atoms : list vec) (basin : vec) : option nat :=
  argmin (map (basin_atom_dist2 L basin) atoms).

(** [np.bincount(idx, weights=w, minlength=n)] for indices below [n]. *)
Definition bincount (idx : list nat) (w : list Q) (n : nat) : list Q :=
  fold_left (fun acc bw => add_at acc (fst bw) (snd bw)) (combine idx w) (repeat 0%Q n).

(** [np.insert(basin_atoms, len, -1)[labels]], bader.py lines 767-768. *)
Definition atom_labels (basin_atoms : list nat) (labels : list Z) : list (option Z) :=
  let tbl := map Z.of_nat basin_atoms ++ [-1] in
  map (fun l => np_get tbl l) labels.

Record assignment := { a_labels : list (option Z); a_charges : list Q; a_volumes : list Q;
                       a_basin_atoms : list nat }.

(** [assign_basins_to_structure], bader.py lines 741-778 ([None] when there are no
    atoms: argmin raises). *)
Definition assign_basins (L : mat) (atoms basins : list vec) (labels : list Z)
    (charges volumes : list Q) : option assignment :=
  match fold_right (fun b acc => match basin_atom L atoms b, acc with
                                 | Some a, Some l => Some (a :: l)
                                 | _, _ => None end) (Some []) basins with
  | None => None
  | Some ba => Some {| a_labels := atom_labels ba labels;
                       a_charges := bincount ba charges (length atoms);
                       a_volumes := bincount ba volumes (length atoms);
                       a_basin_atoms := ba |}
  end.
