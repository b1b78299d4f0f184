(** Specification vocabulary: ends of pointer chains, steepest ascent. *)
From Verif Require Import Base GridModel NeighSpec.

(** [reaches p i r]: following the pointers of [p] from [i] ends at the fixed
    point [r]. *)
Inductive reaches (p : list Z) : nat -> nat -> Prop :=
| reaches_end i : nth_error p i = Some (Z.of_nat i) -> reaches p i i
| reaches_step i j r : nth_error p i = Some (Z.of_nat j) -> reaches p j r -> reaches p i r.

(** [w] is the steepest neighbour of [v]: it is reached by a listed offset of
    maximal slope, the first such in the list. *)
Definition steepest nx ny nz (data : arr3 Q) (nbs : list ((Z * Z * Z) * Q)) (v w : Z * Z * Z) : Prop :=
  exists pre s d post q,
    nbs = pre ++ (s, d) :: post /\ periodic_target nx ny nz v s w /\
    slope nx ny nz data v (s, d) q /\ (0 < q)%Q /\
    (forall nb q', In nb pre -> slope nx ny nz data v nb q' -> (q' < q)%Q) /\
    (forall nb q', In nb post -> slope nx ny nz data v nb q' -> (q' <= q)%Q).

(** [ascends v m]: repeating the steepest step from [v] ends at [m], which has
    no strictly higher neighbour. *)
Inductive ascends nx ny nz (data : arr3 Q) (nbs : list ((Z * Z * Z) * Q))
  : Z * Z * Z -> Z * Z * Z -> Prop :=
| ascends_top v : locally_highest nx ny nz data (map fst nbs) v -> ascends nx ny nz data nbs v v
| ascends_step v w m : steepest nx ny nz data nbs v w -> ascends nx ny nz data nbs w m ->
    ascends nx ny nz data nbs v m.

(** [label] is a dense labelling of the classes of [class] (with -1 kept): labels
    run over exactly 0..n-1, equal labels mean equal classes. *)
Definition dense_labelling (class label : list Z) (n : nat) : Prop :=
  length label = length class /\
  (forall i c l, nth_error class i = Some c -> nth_error label i = Some l ->
     (l = -1 <-> c = -1) /\ (c <> -1 -> 0 <= l < Z.of_nat n)) /\
  (forall k, (k < n)%nat -> exists i, nth_error label i = Some (Z.of_nat k)) /\
  (forall i j ci cj li lj, nth_error class i = Some ci -> nth_error class j = Some cj ->
     nth_error label i = Some li -> nth_error label j = Some lj ->
     (li = lj <-> ci = cj) /\ (li < lj <-> ci < cj)).
