(** Dimensionality of the electride density, core/badelf/badelf.py lines 611-742
    ([_get_ELF_dimensionality]), 744-809 ([_get_electride_dimensionality]) and 560-609 (the properties).

    [lab] stands for [scipy.ndimage.label] with a full 3x3x3 structure on the supercell.  Values are exact
    rationals and the charge and reference grids have the same shape. *)
From Coq Require Import QArith.
From Verif Require Import Base GridModel RootsModel UnionModel ChargeModel NearModel BadelfModel.
Local Open Scope Z_scope.

(** Indexing an axis of length [n]. *)
Definition axis (n i : Z) : option Z :=
  if (0 <=? i) && (i <? n) then Some i else if (- n <=? i) && (i <? 0) then Some (i + n) else None.
Definition at3 {A} (nx ny nz : Z) (f : arr3 A) (v : voxel) : outcome A :=
  let '(i, j, k) := v in
  match axis nx i, axis ny j, axis nz k with Some a, Some b, Some c => Done (f a b c) | _, _, _ => Raised end.

Section Dim.
Variables nx ny nz : Z.
Variable lab : arr3 bool -> arr3 Z.

(** Lines 653-656. *)
Definition feature_index (f : vec) : voxel :=
  let '(x, y, z) := f in (py_round (x * inject_Z nx), py_round (y * inject_Z ny), py_round (z * inject_Z nz)).

(** Line 658. *)
Fixpoint keep (mask : arr3 bool) (l : list voxel) : outcome (list voxel) :=
  match l with
  | [] => Done []
  | v :: t => obind (at3 nx ny nz mask v) (fun b => obind (keep mask t) (fun r => Done (if b then v :: r else r)))
  end.

(** Line 665: [np.tile(mask, [2, 2, 2])]. *)
Definition tile (mask : arr3 bool) : arr3 bool := fun i j k => mask (i mod nx) (j mod ny) (k mod nz).

(** Lines 670-681. *)
Definition copies : list voxel := [(0, 0, 0); (1, 0, 0); (0, 1, 0); (0, 0, 1); (1, 1, 0); (1, 0, 1); (0, 1, 1); (1, 1, 1)].
(** Lines 685-702. *)
Definition connections : list (nat * nat) :=
  [(0, 1); (0, 2); (0, 3); (0, 4); (0, 5); (0, 6); (3, 1); (3, 2); (1, 2); (0, 7); (1, 6); (2, 5); (3, 4)]%nat.

(** Lines 718-721. *)
Definition shift (v t : voxel) : voxel := let '(i, j, k) := v in let '(a, b, c) := t in (a * nx + i, b * ny + j, c * nz + k).
Fixpoint copy_labels (labels : arr3 Z) (v : voxel) (ts : list voxel) : outcome (list Z) :=
  match ts with
  | [] => Done []
  | t :: r => obind (at3 (2 * nx) (2 * ny) (2 * nz) labels (shift v t)) (fun x => obind (copy_labels labels v r) (fun l => Done (x :: l)))
  end.

(** Lines 724-732. *)
Definition count_connections (ls : list Z) : nat := length (filter (fun '(a, b) => nth a ls 0 =? nth b ls 0) connections).

(** Lines 733-740: five connections append nothing. *)
Definition dim_of_count (n : nat) : option nat :=
  if Nat.eqb n 0 then Some 0%nat else if Nat.eqb n 1 then Some 1%nat
  else if Nat.ltb 1 n && Nat.leb n 4 then Some 2%nat else if Nat.ltb 5 n && Nat.leb n 13 then Some 3%nat else None.

(** Lines 715-740. *)
Fixpoint dims_of (labels : arr3 Z) (l : list voxel) : outcome (list nat) :=
  match l with
  | [] => Done []
  | v :: t =>
      obind (copy_labels labels v copies) (fun ls =>
      obind (dims_of labels t) (fun r => Done (match dim_of_count (count_connections ls) with Some d => d :: r | None => r end)))
  end.

(** Line 742: [max] of an empty list raises. *)
Definition py_max (l : list nat) : outcome nat := match l with [] => Raised | x :: t => Done (fold_left Nat.max t x) end.

(** Lines 646-742, after the cutoff has been applied to the mask. *)
Definition mask_dim (feats : list vec) (mask : arr3 bool) : outcome nat :=
  if negb (existsb (rd3 mask) (voxels nx ny nz)) then Done 0%nat
  else obind (keep mask (map feature_index feats)) (fun l =>
       match l with
       | [] => Done 0%nat
       | _ => obind (dims_of (lab (tile mask)) l) py_max
       end).

(** Line 646. *)
Definition above (emask : arr3 bool) (elf : arr3 Q) (cutoff : Q) : arr3 bool := fun i j k => emask i j k && Qle_bool cutoff (elf i j k).
Definition elf_dim (feats : list vec) (emask : arr3 bool) (elf : arr3 Q) (cutoff : Q) : outcome nat := mask_dim feats (above emask elf cutoff).
End Dim.

(** ** Search for the cutoffs *)
(** Line 806: [round(guess, 4)]. *)
Definition round4 (x : Q) : Q := (inject_Z (py_round (x * inject_Z (10 ^ 4))) / inject_Z (10 ^ 4))%Q.

(** Lines 782-786. *)
Definition amounts : list Q := map (fun i => (1 / inject_Z (2 ^ (Z.of_nat i + 1)))%Q) (seq 1 15).

(** Lines 788-804. *)
Fixpoint narrow (dim : Q -> outcome nat) (d : nat) (steps : list Q) (guess : Q) (found : bool) : outcome (Q * bool) :=
  match steps with
  | [] => Done (guess, found)
  | i :: t =>
      obind (dim guess) (fun cur =>
        if Nat.ltb d cur then narrow dim d t (guess + i)%Q found
        else if Nat.ltb cur d then narrow dim d t (guess - i)%Q found
        else narrow dim d t (guess - i)%Q true)
  end.

(** Lines 787-807 for the remaining dimensions. *)
Fixpoint search_dims (dim : Q -> outcome nat) (ds : list nat) : outcome (list (nat * Q)) :=
  match ds with
  | [] => Done []
  | d :: t =>
      obind (narrow dim d amounts (1 # 2) false) (fun '(g, found) =>
      obind (search_dims dim t) (fun r => Done (if found then (d, round4 g) :: r else r)))
  end.

(** Lines 776-809: [final_dimensions] and [final_connections] as pairs. *)
Definition electride_dims (dim : Q -> outcome nat) : outcome (list (nat * Q)) :=
  obind (dim 0%Q) (fun top => obind (search_dims dim (rev (seq 0 top))) (fun r => Done ((top, 0%Q) :: r))).

(** The attributes [_all_electride_dims] (and the cutoffs): unset, the mark [-1], or a list. *)
Inductive attr := Unset | Minus1 | Found (l : list (nat * Q)).

(** Lines 754-809: the mark for "no electrides" is set first, then the search runs in any case. *)
Definition get_electride_dims (nelectrides : nat) (dim : Q -> outcome nat) (a : attr) : outcome attr :=
  let a := if Nat.eqb nelectrides 0 then Minus1 else a in
  obind (electride_dims dim) (fun l => Done (match a with Unset | Minus1 | Found _ => Found l end)).

(** Lines 571-577 and 589-593: what the properties return. *)
Definition all_electride_dims (nelectrides : nat) (dim : Q -> outcome nat) (a : attr) : outcome (option (list (nat * Q)) * attr) :=
  obind (match a with Unset => get_electride_dims nelectrides dim a | _ => Done a end) (fun a1 =>
  Done (match a1 with Found l => Some l | _ => None end, a1)).
