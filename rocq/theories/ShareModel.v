(** Sharing the charges and volumes of features between atoms,
    core/labelers/elf_labeler/elf_labeler.py lines 1056-1217
    ([ElfLabeler.get_charges_and_volumes]), with the feature properties it reads
    (core/labelers/bifurcation_graph/nodes.py lines 473-522).

    Numbers are exact rationals; the final rounding to ten digits (line 1217) and the rounding of
    the feature charges are left out.  Writing outside an array raises IndexError. *)
From Coq Require Import QArith.
From Verif Require Import Base RootsModel UnionModel ChargeModel.
Local Open Scope nat_scope.

Inductive method := Equal | Pauling | Dist | Weighted | Nearest.

Record feature := Feature {
  ft_bare : bool;               (** [feature_type in FeatureType.bare_types] *)
  ft_charge : Q;
  ft_volume : Q;
  ft_coord : list nat;          (** [coord_indices] *)
  ft_coord_e : list nat;        (** [coord_indices_e] *)
  ft_dists : list Q;            (** [atom_dists] *)
  ft_dists_e : list Q           (** [electride_dists] *)
}.

Record system := System {
  s_atoms : nat;                (** [len(self.structure)] *)
  s_features : list feature;
  s_en : list Q;                (** electronegativities, missing ones replaced (lines 1114-1116) *)
  s_radii : list Q;             (** [atom_elf_radii] *)
  s_radii_e : list Q            (** [atom_elf_radii_e] *)
}.

Definition add_idx (l : list Q) (i : nat) (x : Q) : outcome (list Q) :=
  if i <? length l then Done (add_at l i x) else Raised.
Definition add_both (st : list Q * list Q) (i : nat) (c v : Q) : outcome (list Q * list Q) :=
  obind (add_idx (fst st) i c) (fun a => obind (add_idx (snd st) i v) (fun b => Done (a, b))).

(** [np.unique] with indices of first occurrences and counts (lines 1139-1141). *)
Fixpoint insert_nat (x : nat) (l : list nat) : list nat :=
  match l with
  | [] => [x]
  | y :: t => if x <? y then x :: l else if y <? x then y :: insert_nat x t else l
  end.
Definition unique_atoms (l : list nat) : list nat := fold_right insert_nat [] l.
Fixpoint first_at (x : nat) (l : list nat) : nat :=
  match l with [] => 0 | y :: t => if Nat.eqb y x then 0 else S (first_at x t) end.
Definition count (x : nat) (l : list nat) : Q := inject_Z (Z.of_nat (count_occ Nat.eq_dec l x)).

Definition total (l : list Q) : Q := fold_left Qplus l 0%Q.
Definition normalised (l : list Q) : list Q := map (fun x => (x / total l)%Q) l.

Section Share.
Variable sys : system.
Variable use_e : bool.
Variable m : method.

Definition coord (f : feature) : list nat := if use_e then ft_coord_e f else ft_coord f.
Definition coord_dists (f : feature) : list Q := map (fun a => nth a (ft_dists f) 0%Q) (ft_coord f).
Definition coord_dists_e (f : feature) : list Q := map (fun a => nth a (ft_dists_e f) 0%Q) (ft_coord_e f).
Definition used_dists (f : feature) : list Q := if use_e then coord_dists_e f else coord_dists f.
Definition used_radii (f : feature) : list Q :=
  map (fun a => nth a (if use_e then s_radii_e sys else s_radii sys) 0%Q) (coord f).

Fixpoint add_pieces (st : list Q * list Q) (l : list (nat * Q * Q)) : outcome (list Q * list Q) :=
  match l with
  | [] => Done st
  | (a, c, v) :: t => obind (add_both st a c v) (fun st1 => add_pieces st1 t)
  end.

(** Lines 1134-1215: the part of a feature that is not treated as an atom of its own. *)
Definition share (st : list Q * list Q) (f : feature) : outcome (list Q * list Q) :=
  let q := ft_charge f in
  let v := ft_volume f in
  let ca := coord f in
  match ca with
  | [] => match argmin (coord_dists f) with None => Raised | Some k => add_both st k q v end
  | [a] => add_both st a q v
  | _ =>
    match m with
    | Equal =>
        let n := inject_Z (Z.of_nat (length ca)) in
        add_pieces st (map (fun a => (a, (q / n * count a ca)%Q, (v / n * count a ca)%Q)) (unique_atoms ca))
    | Pauling =>
        let ens := normalised (map (fun a => nth a (s_en sys) 0%Q) ca) in
        add_pieces st (map (fun a =>
          let e := nth (first_at a ca) ens 0%Q in
          (a, (q * e * count a ca)%Q, (v * e * count a ca)%Q)) (unique_atoms ca))
    | Dist =>
        let w := normalised (map (fun d => (1 / d)%Q) (used_dists f)) in
        add_pieces st (map (fun '(a, x) => (a, (q * x)%Q, (v * x)%Q)) (combine ca w))
    | Weighted =>
        let w := normalised (map (fun '(r, d) => (r / d)%Q) (combine (used_radii f) (used_dists f))) in
        add_pieces st (map (fun '(a, x) => (a, (q * x)%Q, (v * x)%Q)) (combine ca w))
    | Nearest =>
        match argmin (coord_dists f) with None => Raised | Some k => add_both st k q v end
    end
  end.

(** Lines 1118-1132: one feature; [k] is [electride_num]. *)
Definition feature_step (st : list Q * list Q) (k : nat) (f : feature) : outcome (list Q * list Q * nat) :=
  if (use_e && ft_bare f)%bool
  then obind (add_both st (s_atoms sys + k) (ft_charge f) (ft_volume f)) (fun st1 => Done (st1, S k))
  else obind (share st f) (fun st1 => Done (st1, k)).

Fixpoint feature_loop (st : list Q * list Q) (k : nat) (l : list feature) : outcome (list Q * list Q) :=
  match l with
  | [] => Done st
  | f :: t => obind (feature_step st k f) (fun '(st1, k1) => feature_loop st1 k1 t)
  end.

(** Number of sites of the structure used (lines 1104-1107, graph.py lines 194-208). *)
Definition n_sites : nat :=
  s_atoms sys + (if use_e then length (filter ft_bare (s_features sys)) else 0).

Definition get_charges_and_volumes : outcome (list Q * list Q) :=
  feature_loop (repeat 0%Q n_sites, repeat 0%Q n_sites) 0 (s_features sys).
End Share.
