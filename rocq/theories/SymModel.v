(** Stored symmetry of a structure, src/baderkit/core/toolkit/structure.py lines 24-45 and 229-287.

    Sites are objects: a structure and the tuple saved with its symmetry refer to them, so that editing a site in place
    (its coordinates, or its lattice, as the assignment [structure.lattice = ...] of pymatgen does) changes both.

    Simplifications: objects are numbers and [heap] gives their contents, also of those not yet in use; lists of sites
    are compared by [same] (pymatgen compares within a tolerance); [SpacegroupAnalyzer] is [analyze] ([None]: it raises)
    and computes the dataset when it is created; [equivalent_atoms] is part of the dataset. *)
From Verif Require Import Base.

Section Sym.
Context {Site Kwargs Analyzer Data : Type}.
Variable same : list Site -> list Site -> bool.
Variable analyze : list Site -> Kwargs -> option Analyzer.
Variable dataset : Analyzer -> Data.

Record structure := Structure {
  heap : nat -> Site; refs : list nat; kwargs : Kwargs;
  stored_data : option Data; last_save : option (list nat); stored_analyzer : option Analyzer }.
(** [tuple(self)] as it is now. *)
Definition sites (o : structure) : list Site := map (heap o) (refs o).

(** Lines 41-45. *)
Definition new_structure (hp : nat -> Site) (s : list nat) (k : Kwargs) : structure := Structure hp s k None None None.

(** [_last_symmetry_save != tuple(self)]. *)
Definition outdated (o : structure) : bool :=
  match last_save o with None => true | Some l => negb (same (map (heap o) l) (sites o)) end.

(** Lines 248-261: the sites are saved before the analyzer is made. *)
Definition spacegroup_analyzer (o : structure) : option Analyzer * structure :=
  if (match stored_analyzer o with None => true | Some _ => false end) || outdated o then
    match analyze (sites o) (kwargs o) with
    | Some a => (Some a, Structure (heap o) (refs o) (kwargs o) (stored_data o) (Some (refs o)) (Some a))
    | None => (None, Structure (heap o) (refs o) (kwargs o) (stored_data o) (Some (refs o)) (stored_analyzer o))
    end
  else (stored_analyzer o, o).

(** Lines 263-287. *)
Definition symmetry_data (o : structure) : option Data * structure :=
  if (match stored_data o with None => true | Some _ => false end) || outdated o then
    let '(r, o1) := spacegroup_analyzer o in
    match r with
    | Some a => (Some (dataset a), Structure (heap o1) (refs o1) (kwargs o1) (Some (dataset a)) (last_save o1) (stored_analyzer o1))
    | None => (None, o1)
    end
  else (stored_data o, o).

(** Lines 242-246. *)
Definition set_kwargs (k : Kwargs) (o : structure) : structure :=
  Structure (heap o) (refs o) k None (last_save o) (stored_analyzer o).
(** Sites added, removed, reordered or replaced by other objects. *)
Definition change_sites (s : list nat) (o : structure) : structure :=
  Structure (heap o) s (kwargs o) (stored_data o) (last_save o) (stored_analyzer o).
(** A site edited in place. *)
Definition edit_site (i : nat) (x : Site) (o : structure) : structure :=
  Structure (fun j => if Nat.eqb i j then x else heap o j) (refs o) (kwargs o) (stored_data o) (last_save o) (stored_analyzer o).

Inductive op := ChangeSites (s : list nat) | EditSite (i : nat) (x : Site) | SetKwargs (k : Kwargs) | ReadAnalyzer | ReadData.
Definition step (o : structure) (p : op) : structure :=
  match p with
  | ChangeSites s => change_sites s o
  | EditSite i x => edit_site i x o
  | SetKwargs k => set_kwargs k o
  | ReadAnalyzer => snd (spacegroup_analyzer o)
  | ReadData => snd (symmetry_data o)
  end.
Definition run (h : list op) (o : structure) : structure := fold_left step h o.
End Sym.
Arguments op : clear implicits.
Arguments structure : clear implicits.
