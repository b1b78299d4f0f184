(** Which site a basin belongs to when some features are treated as sites of their own. *)
From Coq Require Import QArith.
From Verif Require Import Base FeatLabModel.
Local Open Scope nat_scope.

(** Tables as they come out of the earlier steps: every basin has an atom, the basins of features
    exist, and no basin belongs to two features. *)
Record tables_ok (feats : list lfeature) (natoms : nat) (basin_atoms : list nat) (labels : list Z) (charges volumes : list Q) : Prop := {
  tk_atoms : forall a, In a basin_atoms -> a < natoms;
  tk_basins : forall f b, In f feats -> In b (lf_basins f) -> b < length basin_atoms;
  tk_disjoint : forall i j f g b, nth_error feats i = Some f -> nth_error feats j = Some g ->
    In b (lf_basins f) -> In b (lf_basins g) -> i = j;
  tk_labels : forall l, In l labels -> l = (-1)%Z \/ (0 <= l < Z.of_nat (length basin_atoms))%Z;
  tk_charges : length charges = length basin_atoms;
  tk_volumes : length volumes = length basin_atoms
}.

(** [owner feats natoms basin_atoms idx b s]: with the features [idx] (in this order) as sites after
    the atoms, basin [b] belongs to site [s]. *)
Definition owner (feats : list lfeature) (natoms : nat) (basin_atoms idx : list nat) (b s : nat) : Prop :=
  (exists k i f, nth_error idx k = Some i /\ nth_error feats i = Some f /\ In b (lf_basins f) /\ s = natoms + k) \/
  ((forall i f, In i idx -> nth_error feats i = Some f -> ~ In b (lf_basins f)) /\ nth_error basin_atoms b = Some s).

(** The selected features: those of a requested type; bare ones first if so ordered, otherwise in
    the order of the features. *)
Definition selection (bare : nat -> bool) (feats : list lfeature) (included : list nat) (order_by_type : bool) (idx : list nat) : Prop :=
  NoDup idx /\
  (forall i, In i idx <-> exists f, nth_error feats i = Some f /\ In (lf_type f) included) /\
  (forall p q i j f g, p < q -> nth_error idx p = Some i -> nth_error idx q = Some j ->
     nth_error feats i = Some f -> nth_error feats j = Some g ->
     if order_by_type
     then if bare (lf_type f) then bare (lf_type g) = true -> i < j else bare (lf_type g) = false /\ i < j
     else i < j).
