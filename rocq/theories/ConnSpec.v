(** Vocabulary for connections between basins. *)
From Coq Require Import QArith.
From Verif Require Import Base GridModel NeighSpec.
Local Open Scope Z_scope.

(** At a voxel of basin [a] selected by [mask] and outside the vacuum, a neighbour belongs
    to basin [b], and [q] is the smaller of the two values. *)
Definition meets (nx ny nz : Z) (ts : list (Z * Z * Z)) (labels : arr3 Z) (data : arr3 Q)
    (vacuum mask : arr3 bool) (a b : Z) (q : Q) : Prop :=
  exists v s w, in_grid nx ny nz v /\ value_at mask v = true /\ value_at vacuum v = false /\
    In s ts /\ periodic_target nx ny nz v s w /\
    value_at labels v = a /\ value_at labels w = b /\ a <> -1 /\ b <> -1 /\ a <> b /\
    q = (if Qlt_le_dec (value_at data w) (value_at data v) then value_at data w
         else value_at data v).

(** No selected voxel joins [a] to another basin. *)
Definition lonely (joined : Z -> Z -> Q -> Prop) (a : Z) : Prop :=
  forall b q, ~ joined a b q /\ ~ joined b a q.

Definition basin_labels (nx ny nz : Z) (num : nat) (labels : arr3 Z) : Prop :=
  forall v, in_grid nx ny nz v -> -1 <= value_at labels v < Z.of_nat num.
