(** Labelling voxels by feature, core/labelers/elf_labeler/elf_labeler.py
    lines 981-1003 ([feature_indices_by_type]), 1219-1332 ([get_feature_labels]).

    Feature types are numbers; [bare] tells the types in [FeatureType.bare_types].  The species and
    coordinates of the structure with dummy atoms are left out: the structure is represented by the
    list of its sites, an atom or a feature number. *)
From Coq Require Import QArith.
From Verif Require Import Base RootsModel UnionModel ChargeModel.
Local Open Scope nat_scope.

Record lfeature := LFeature { lf_type : nat; lf_basins : list nat }.

Inductive site := SAtom (i : nat) | SFeature (i : nat).

(** What the caller receives: a bare array or a tuple. *)
Inductive item :=
| ILabels (l : list (option Z))
| IStructure (l : list site)
| IIndices (l : list nat)
| IValues (l : list Q).
Inductive reply := Single (x : item) | Tuple (l : list item).

Section Labels.
Variable bare : nat -> bool.
Variable feats : list lfeature.
Variable natoms : nat.
Variable basin_atoms : list nat.
Variable basin_labels : list Z.
Variable basin_charges basin_volumes : list Q.

Definition type_of (i : nat) : nat := lf_type (nth i feats (LFeature 0 [])).
Definition basins_of (i : nat) : list nat := lf_basins (nth i feats (LFeature 0 [])).

(** Lines 1000-1003. *)
Definition feature_indices_by_type (included : list nat) : list nat :=
  filter (fun i => existsb (Nat.eqb (type_of i)) included) (seq 0 (length feats)).

(** Lines 1275-1283: one pass appending to two lists. *)
Fixpoint order_features (l bares others : list nat) : list nat :=
  match l with
  | [] => bares ++ others
  | i :: t => if bare (type_of i) then order_features t (bares ++ [i]) others
              else order_features t bares (others ++ [i])
  end.

(** [basin_atoms[basins] = v], line 1291. *)
Fixpoint set_all (ba : list nat) (basins : list nat) (v : nat) : outcome (list nat) :=
  match basins with
  | [] => Done ba
  | b :: t => if b <? length ba then set_all (upd ba b v) t v else Raised
  end.

(** Lines 1288-1296. *)
Fixpoint relabel (ba : list nat) (sites : list site) (next : nat) (l : list nat) : outcome (list nat * list site) :=
  match l with
  | [] => Done (ba, sites)
  | i :: t => obind (set_all ba (basins_of i) next) (fun ba1 => relabel ba1 (sites ++ [SFeature i]) (S next) t)
  end.

Definition selected (included : list nat) (order_by_type : bool) : list nat :=
  let l := feature_indices_by_type included in
  if order_by_type then order_features l [] [] else l.

(** Lines 1268-1332. *)
Definition get_feature_labels (included : list nat) (ret_structure ret_indices ret_charge order_by_type : bool) : outcome reply :=
  let idx := selected included order_by_type in
  obind (relabel basin_atoms (map SAtom (seq 0 natoms)) natoms idx) (fun '(ba, sites) =>
    let labels := atom_labels ba basin_labels in
    if negb (ret_structure || ret_indices || ret_charge)
    then Done (Single (ILabels labels))
    else Done (Tuple ([ILabels labels]
           ++ (if ret_structure then [IStructure sites] else [])
           ++ (if ret_indices then [IIndices idx] else [])
           ++ (if ret_charge then [IValues (bincount ba basin_charges (length sites)); IValues (bincount ba basin_volumes (length sites))] else [])))).
End Labels.
