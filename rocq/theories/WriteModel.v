(** Files of features, core/labelers/elf_labeler/elf_labeler.py lines 1630-1859 and
    elf_labeler_spin.py lines 780-1027, and files of atoms, core/badelf/badelf_spin.py lines 608-912.

    Simplifications: all files are in one directory, where they are found by name; the contents of a file
    are the structure and the array given to [Grid.write] (its text is the subject of C28-C30), so that
    [output_format] and the other arguments of the writer are left out; a call that raises says nothing
    about the files written before. *)
From Coq Require Import QArith String DecimalString.
From Verif Require Import Base RootsModel UnionModel GridModel ChargeModel LabelsModel NearModel SurfaceModel MarkModel ReportModel.
Local Open Scope Z_scope.

(** ** Files *)
Definition content : Type := list (string * vec) * arr3 Q.
Definition files : Type := string -> option content.
Definition write (name : string) (c : content) (f : files) : files := fun n => if String.eqb n name then Some c else f n.
(** [os.rename] replaces the destination. *)
Definition rename (src dst : string) (f : files) : outcome files :=
  match f src with
  | Some c => Done (fun n => if String.eqb n dst then Some c else if String.eqb n src then None else f n)
  | None => Raised
  end.
(** [directory / name]: a directory given as text does not support the operator. *)
Inductive directory := NoDir | PathDir | TextDir.
Definition joined (d : directory) : outcome unit := match d with PathDir => Done tt | _ => Raised end.
Definition resolve (d : directory) : directory := match d with NoDir => PathDir | _ => d end.

Definition str (i : Z) : string := NilZero.string_of_int (Z.to_int i).
Definition feature_file (prefix : string) (i : Z) : string := (prefix ++ "_f" ++ str i)%string.
Definition union_file (prefix : string) : string := (prefix ++ "_fsum")%string.
Definition type_prefix (prefix : string) (t : ftype) : string := (prefix ++ "_" ++ dummy_species t)%string.
Definition or_default (given : option string) (default : string) : string := match given with Some p => p | None => default end.

(** ** [ElfLabeler] *)
Record labeler := Labeler {
  w_reference : arr3 Q;
  w_charge : arr3 Q;
  w_reference_prefix : string;
  w_charge_prefix : string;
  w_nodes : list rnode;            (** the irreducible nodes *)
  w_labels : arr3 Z;               (** [bader.basin_labels] *)
  w_atoms : list (string * vec)
}.
Definition data_of (reference : bool) (l : labeler) : arr3 Q := if reference then w_reference l else w_charge l.
Definition prefix_of (reference : bool) (l : labeler) : string := if reference then w_reference_prefix l else w_charge_prefix l.
Definition basins_of (n : rnode) : list Z := map Z.of_nat (r_basins n).

(** Lines 1384-1414. *)
Fixpoint append_features (l : labeler) (indices : list Z) (s : list (string * vec)) : outcome (list (string * vec)) :=
  match indices with
  | [] => Done s
  | i :: t => obind (oget (np_get (w_nodes l) i)) (fun n => append_features l t (s ++ [site_of n]))
  end.
Definition structure_of (dummy : bool) (l : labeler) (indices : list Z) : outcome (list (string * vec)) :=
  if dummy then append_features l indices (w_atoms l) else Done (w_atoms l).
(** Lines 1690-1693. *)
Definition masked (data : arr3 Q) (labels : arr3 Z) (basins : list Z) : arr3 Q :=
  fun i j k => if negb (np_isin basins (labels i j k)) then 0%Q else data i j k.

(** Lines 1630-1701. *)
Fixpoint write_each (l : labeler) (d : directory) (s : list (string * vec)) (data : arr3 Q) (prefix : string) (indices : list Z)
    (f : files) : outcome files :=
  match indices with
  | [] => Done f
  | i :: t =>
      obind (oget (np_get (w_nodes l) i)) (fun n =>
      obind (joined d) (fun _ =>
      write_each l d s data prefix t (write (feature_file prefix i) (s, masked data (w_labels l) (basins_of n)) f)))
  end.
Definition write_feature_basins (l : labeler) (indices : list Z) (d : directory) (dummy reference : bool) (prefix : option string)
    (f : files) : outcome files :=
  obind (structure_of dummy l indices) (fun s =>
  write_each l (resolve d) s (data_of reference l) (or_default prefix (prefix_of reference l)) indices f).

(** Lines 1759-1762. *)
Fixpoint collect_basins (l : labeler) (indices : list Z) (acc : list Z) : outcome (list Z) :=
  match indices with
  | [] => Done acc
  | i :: t => obind (oget (np_get (w_nodes l) i)) (fun n => collect_basins l t (acc ++ basins_of n))
  end.
(** Lines 1703-1776. *)
Definition write_feature_basins_sum (l : labeler) (indices : list Z) (d : directory) (dummy reference : bool) (prefix : option string)
    (f : files) : outcome files :=
  obind (structure_of dummy l indices) (fun s =>
  obind (collect_basins l indices []) (fun basins =>
  obind (joined (resolve d)) (fun _ =>
  Done (write (union_file (or_default prefix (prefix_of reference l))) (s, masked (data_of reference l) (w_labels l) basins) f)))).

Definition all_indices (l : labeler) : list Z := map Z.of_nat (seq 0 (List.length (w_nodes l))).
(** Lines 1778-1790. *)
Definition write_all_features (l : labeler) d dummy reference prefix (f : files) : outcome files :=
  write_feature_basins l (all_indices l) d dummy reference prefix f.

(** Lines 981-1003. *)
Definition feature_indices_by_type (l : labeler) (types : list ftype) : list Z :=
  map (fun p => Z.of_nat (fst p)) (filter (fun p => type_in (r_type (snd p)) types) (combine (seq 0 (List.length (w_nodes l))) (w_nodes l))).
(** Lines 1792-1841: [write_reference] chooses the prefix and is not passed on. *)
Fixpoint write_types (l : labeler) (types : list ftype) (d : directory) (dummy : bool) (prefix : string) (f : files) : outcome files :=
  match types with
  | [] => Done f
  | t :: rest =>
      let p := type_prefix prefix t in
      obind (write_feature_basins_sum l (feature_indices_by_type l [t]) d dummy true (Some p) f) (fun f1 =>
      obind (joined d) (fun _ =>
      obind (rename (union_file p) p f1) (fun f2 => write_types l rest d dummy prefix f2)))
  end.
Definition write_features_by_type (l : labeler) types d dummy (reference : bool) (prefix : option string) (f : files) : outcome files :=
  write_types l types d dummy (or_default prefix (prefix_of reference l)) f.
(** Lines 1843-1859. *)
Definition write_features_by_type_sum (l : labeler) types d dummy reference prefix (f : files) : outcome files :=
  write_feature_basins_sum l (feature_indices_by_type l types) d dummy reference prefix f.

(** ** [SpinElfLabeler] *)
Record spin_labeler := SpinLabeler {
  s_equal : bool;
  s_up : labeler;
  s_down : labeler;
  s_reference_prefix : string;
  s_charge_prefix : string
}.
Definition spin_prefix (reference : bool) (s : spin_labeler) (prefix : option string) : string :=
  or_default prefix (if reference then s_reference_prefix s else s_charge_prefix s).
(** Lines 816-820. *)
Definition temp_prefix (equal : bool) (prefix : string) : string := if equal then (prefix ++ "_temp")%string else prefix.

(** Lines 822-840 and 844-857: the files of one spin. *)
Fixpoint write_spin (l : labeler) (d : directory) (dummy reference : bool) (temp prefix suffix : string) (indices : list Z) (f : files)
    : outcome files :=
  match indices with
  | [] => Done f
  | i :: t =>
      obind (write_feature_basins l [i] d dummy reference (Some temp) f) (fun f1 =>
      obind (joined d) (fun _ =>
      obind (rename (feature_file temp i) (feature_file prefix i ++ suffix)%string f1) (fun f2 =>
      write_spin l d dummy reference temp prefix suffix t f2)))
  end.
(** Lines 780-857. *)
Definition spin_write_all_features (s : spin_labeler) (d : directory) (dummy reference : bool) (prefix : option string) (f : files)
    : outcome files :=
  let d := resolve d in
  let prefix := spin_prefix reference s prefix in
  let temp := temp_prefix (s_equal s) prefix in
  if s_equal s then write_spin (s_up s) d dummy reference temp prefix "" (all_indices (s_up s)) f
  else
    obind (write_spin (s_up s) d dummy reference temp prefix "_up" (all_indices (s_up s)) f) (fun f1 =>
    write_spin (s_down s) d dummy reference temp prefix "_down" (all_indices (s_down s)) f1).

(** Lines 906-944: the loop returns after the first type when the spins are equal. *)
Fixpoint spin_types (s : spin_labeler) (types : list ftype) (d : directory) (dummy reference : bool) (temp prefix : string) (f : files)
    : outcome files :=
  match types with
  | [] => Done f
  | t :: rest =>
      obind (write_features_by_type (s_up s) [t] d dummy reference (Some temp) f) (fun f1 =>
      obind (joined d) (fun _ =>
      if s_equal s then rename (type_prefix temp t) (type_prefix prefix t) f1
      else
        obind (rename (type_prefix temp t) (type_prefix prefix t ++ "_up")%string f1) (fun f2 =>
        obind (write_features_by_type (s_down s) [t] d dummy reference (Some temp) f2) (fun f3 =>
        obind (rename (type_prefix temp t) (type_prefix prefix t ++ "_down")%string f3) (fun f4 =>
        spin_types s rest d dummy reference temp prefix f4)))))
  end.
(** Lines 859-944. *)
Definition spin_write_features_by_type (s : spin_labeler) types d dummy reference (prefix : option string) (f : files) : outcome files :=
  let prefix := spin_prefix reference s prefix in
  spin_types s types (resolve d) dummy reference (temp_prefix (s_equal s) prefix) prefix f.

(** Lines 946-1027. *)
Definition spin_write_features_by_type_sum (s : spin_labeler) types d dummy reference (prefix : option string) (f : files) : outcome files :=
  let d := resolve d in
  let prefix := spin_prefix reference s prefix in
  let temp := temp_prefix (s_equal s) prefix in
  obind (write_features_by_type_sum (s_up s) types d dummy reference (Some temp) f) (fun f1 =>
  obind (joined d) (fun _ =>
  if s_equal s then rename (union_file temp) (union_file prefix) f1
  else
    obind (rename (union_file temp) (union_file prefix ++ "_up")%string f1) (fun f2 =>
    obind (write_features_by_type_sum (s_down s) types d dummy reference (Some temp) f2) (fun f3 =>
    rename (union_file temp) (union_file prefix ++ "_down")%string f3)))).

(** ** [Badelf] and [SpinBadelf] *)
Record parts := Parts {
  p_reference : arr3 Q;
  p_charge : arr3 Q;
  p_labels : arr3 Z;                       (** [atom_labels] *)
  p_atoms : list (string * vec);
  p_sites : list (string * vec)            (** [electride_structure] *)
}.
Definition part_data (reference : bool) (p : parts) : arr3 Q := if reference then p_reference p else p_charge p.
Definition part_structure (dummy : bool) (p : parts) : list (string * vec) := if dummy then p_sites p else p_atoms p.
Definition atom_file (prefix : string) (i : Z) : string := (prefix ++ "_a" ++ str i)%string.
(** badelf.py lines 1181-1245 with a prefix. *)
Definition badelf_write_atoms (p : parts) (indices : list Z) (d : directory) (dummy reference : bool) (prefix : string) (f : files)
    : outcome files :=
  fold_left (fun o w => obind o (fun f => obind (joined (resolve d)) (fun _ => Done (write (atom_file prefix (fst w)) (part_structure dummy p, snd w) f))))
    (badelf_write (part_data reference p) (p_labels p) indices) (Done f).

Record spin_parts := SpinParts {
  sp_equal : bool;
  sp_up : parts;
  sp_down : parts;
  sp_reference_prefix : string;
  sp_charge_prefix : string;
  sp_sites : list (string * vec)           (** [electride_structure] of both spins *)
}.
(** badelf_spin.py lines 662-689: the file of equal spins is not renamed. *)
Fixpoint spin_atoms (s : spin_parts) (indices : list Z) (d : directory) (dummy reference : bool) (temp prefix : string) (f : files)
    : outcome files :=
  match indices with
  | [] => Done f
  | i :: t =>
      obind (badelf_write_atoms (sp_up s) [i] d dummy reference temp f) (fun f1 =>
      if sp_equal s then spin_atoms s t d dummy reference temp prefix f1
      else
        obind (joined d) (fun _ =>
        obind (rename (atom_file temp i) (atom_file prefix i ++ "_up")%string f1) (fun f2 =>
        obind (badelf_write_atoms (sp_down s) [i] d dummy reference temp f2) (fun f3 =>
        obind (rename (atom_file temp i) (atom_file prefix i ++ "_down")%string f3) (fun f4 =>
        spin_atoms s t d dummy reference temp prefix f4)))))
  end.
(** Lines 608-689. *)
Definition spin_write_atom_volumes (s : spin_parts) (indices : list Z) (d : directory) (dummy reference : bool) (prefix : option string)
    (f : files) : outcome files :=
  let prefix := or_default prefix (if reference then sp_reference_prefix s else sp_charge_prefix s) in
  spin_atoms s indices (resolve d) dummy reference (temp_prefix (sp_equal s) prefix) prefix f.
(** Lines 691-769. *)
Definition spin_write_all_atom_volumes (s : spin_parts) d dummy reference prefix (f : files) : outcome files :=
  spin_write_atom_volumes s (map Z.of_nat (seq 0 (List.length (sp_sites s)))) d dummy reference prefix f.
