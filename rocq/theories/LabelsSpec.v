(** Specification vocabulary for the merging of maxima. *)
From Verif Require Import Base GridModel RootsModel NeighSpec UnionSpec.

Section S.
Variables nx ny nz : Z.
Variable data : arr3 Q.
Variable ts : list (Z * Z * Z).
Variable vac : arr3 bool.

(** A maximum: outside the vacuum, no strictly higher neighbour. *)
Definition is_maximum (v : Z * Z * Z) : Prop :=
  in_grid nx ny nz v /\ value_at vac v = false /\ locally_highest nx ny nz data ts v.

(** Adjacent voxels of equal value. *)
Definition level_neighbours (v w : Z * Z * Z) : Prop :=
  exists s, In s ts /\ periodic_target nx ny nz v s w /\ (value_at data w == value_at data v)%Q.

(** A maximum on a plateau that a chain of level steps through maxima leaves:
    not a real maximum. *)
Inductive false_maximum : Z * Z * Z -> Prop :=
| fm_edge v w : is_maximum v -> level_neighbours v w -> ~ is_maximum w -> false_maximum v
| fm_step v w : is_maximum v -> level_neighbours v w -> false_maximum w -> false_maximum v.

Definition true_maximum (v : Z * Z * Z) : Prop := is_maximum v /\ ~ false_maximum v.

Definition adjacent (v w : Z * Z * Z) : Prop :=
  exists s, In s ts /\ periodic_target nx ny nz v s w.

Notation num := (voxel_number ny nz).
Notation value := (value_at data).

(** Merge requests, as pairs of voxel numbers. *)

(** A false maximum is merged into a strictly higher real maximum. *)
Definition flat_pair (e : nat * nat) : Prop :=
  exists f m, e = (num f, num m) /\ false_maximum f /\ true_maximum m /\ (value f < value m)%Q.

(** Two maxima accepted by the interpolation criterion [same]; only real maxima are
    tested, against maxima at least as high. *)
Definition interp_pair (maxima : list (Z * Z * Z)) (same : nat -> nat -> outcome bool) (e : nat * nat) : Prop :=
  exists a b, let v := nth a maxima (0, 0, 0) in let w := nth b maxima (0, 0, 0) in
    e = (num v, num w) /\ (a < length maxima)%nat /\ (b < length maxima)%nat /\ a <> b /\
    same a b = Done true /\ ~ false_maximum v /\ (value v <= value w)%Q.

Definition adjacent_pair (e : nat * nat) : Prop :=
  exists v w, e = (num v, num w) /\ is_maximum v /\ is_maximum w /\ adjacent v w.

(** The fractional position [q] lies in the cell and the voxel [b] is closest to it
    (along each axis within half a voxel, modulo the period). *)
Definition close1 (n b : Z) (q : Q) : Prop :=
  (0 <= q < 1)%Q /\ exists z, z mod n = b /\ (inject_Z z - (1 # 2) <= q * inject_Z n <= inject_Z z + (1 # 2))%Q.
Definition position_of (b : Z * Z * Z) (q : Q * Q * Q) : Prop :=
  let '(b0, b1, b2) := b in let '(q0, q1, q2) := q in close1 nx b0 q0 /\ close1 ny b1 q1 /\ close1 nz b2 q2.

(** The outcome of merging: a label array, the list of representatives and the
    list [E] of merge requests that explains it. *)
Record merged (maxima : list (Z * Z * Z)) (same : nat -> nat -> outcome bool) (sorted : list nat)
    (lab : list Z) (reps : list (Z * Z * Z)) (E : list (nat * nat)) : Prop := {
  m_length : length lab = Z.to_nat (nx * ny * nz);
  m_other : forall v, in_grid nx ny nz v -> ~ is_maximum v -> nth_error lab (num v) = Some (-1);
  (* every maximum points to a highest member of its own group, which is a real
     maximum and points to itself *)
  m_rep : forall m, is_maximum m -> exists b, true_maximum b /\
    nth_error lab (num m) = Some (Z.of_nat (num b)) /\ nth_error lab (num b) = Some (Z.of_nat (num b)) /\
    In b reps /\ (value m <= value b)%Q;
  (* groups are exactly the classes of the requests *)
  m_classes : forall v w, is_maximum v -> is_maximum w ->
    (nth_error lab (num v) = nth_error lab (num w) <-> connected E (num v) (num w));
  m_sound : forall e, In e E -> flat_pair e \/ adjacent_pair e \/ interp_pair maxima same e;
  m_adjacent : forall e, adjacent_pair e -> In e E;
  m_flat : forall f, false_maximum f -> exists m, flat_pair (num f, num m) /\ In (num f, num m) E;
  m_interp : forall a b, In a (tl sorted) -> interp_pair maxima same (num (nth a maxima (0, 0, 0)), num (nth b maxima (0, 0, 0))) ->
    exists b', let e := (num (nth a maxima (0, 0, 0)), num (nth b' maxima (0, 0, 0))) in In e E /\ interp_pair maxima same e;
  (* one representative per group *)
  m_nodup : NoDup reps;
  m_reps : forall b, In b reps -> true_maximum b /\ nth_error lab (num b) = Some (Z.of_nat (num b))
}.
End S.
