(** Independent specification vocabulary for the neighbour scans. *)
From Verif Require Import Base GridModel.

(** [w] is the voxel reached from [v] by the offset [s] in a periodic grid. *)
Definition periodic_target (nx ny nz : Z) (v s w : Z * Z * Z) : Prop :=
  let '(i, j, k) := v in let '(si, sj, sk) := s in
  w = ((i + si) mod nx, (j + sj) mod ny, (k + sk) mod nz).

Definition value_at {A} (a : arr3 A) (v : Z * Z * Z) : A := let '(i, j, k) := v in a i j k.

(** Offsets with components in {-1,0,1}. *)
Definition unit_offset (s : Z * Z * Z) : Prop :=
  let '(a, b, c) := s in -1 <= a <= 1 /\ -1 <= b <= 1 /\ -1 <= c <= 1.

(** [(s,d)] has slope [q] from [v]. *)
Definition slope (nx ny nz : Z) (data : arr3 Q) (v : Z * Z * Z) (nb : (Z * Z * Z) * Q) (q : Q) : Prop :=
  exists w, periodic_target nx ny nz v (fst nb) w /\
            (q == (value_at data w - value_at data v) / snd nb)%Q.

(** [v] has no strictly higher neighbour. *)
Definition locally_highest nx ny nz (data : arr3 Q) (ts : list (Z * Z * Z)) (v : Z * Z * Z) : Prop :=
  forall s w, In s ts -> periodic_target nx ny nz v s w -> (value_at data w <= value_at data v)%Q.

Definition locally_lowest nx ny nz (data : arr3 Q) (ts : list (Z * Z * Z)) (v : Z * Z * Z) : Prop :=
  forall s w, In s ts -> periodic_target nx ny nz v s w -> (value_at data v <= value_at data w)%Q.

(** Flat C-order number of a voxel. *)
Definition voxel_number (ny nz : Z) (v : Z * Z * Z) : nat :=
  let '(i, j, k) := v in Z.to_nat ((i * ny + j) * nz + k).

(** A schedule of a parallel voxel loop: every voxel number occurs. *)
Definition covers (nx ny nz : Z) (order : list nat) : Prop :=
  forall idx, (idx < Z.to_nat (nx * ny * nz))%nat -> In idx order.
