(** Specifications for [DimModel]. *)
From Coq Require Import QArith.
From Verif Require Import Base GridModel RootsModel UnionModel ChargeModel NearModel BadelfModel DimModel.
Local Open Scope Z_scope.

(** Voxels sharing a face, an edge or a corner (or equal). *)
Definition touching (a b : voxel) : Prop :=
  let '(x, y, z) := a in let '(x', y', z') := b in Z.abs (x - x') <= 1 /\ Z.abs (y - y') <= 1 /\ Z.abs (z - z') <= 1.

(** A walk from voxel to touching voxel, all of them allowed. *)
Inductive joined (ok : voxel -> Prop) : voxel -> voxel -> Prop :=
| joined_refl v : ok v -> joined ok v v
| joined_step a b c : ok a -> touching a b -> joined ok b c -> joined ok a c.

(** Voxels of a box that are set. *)
Definition in_box (nx ny nz : Z) (v : voxel) : Prop := let '(i, j, k) := v in 0 <= i < nx /\ 0 <= j < ny /\ 0 <= k < nz.
Definition set_in (nx ny nz : Z) (m : arr3 bool) (v : voxel) : Prop := in_box nx ny nz v /\ rd3 m v = true.

(** What [scipy.ndimage.label] promises for a box. *)
Definition labels_ok (nx ny nz : Z) (m : arr3 bool) (labels : arr3 Z) : Prop :=
  (forall v, in_box nx ny nz v -> (rd3 labels v = 0 <-> rd3 m v = false)) /\
  (forall a b, set_in nx ny nz m a -> set_in nx ny nz m b -> (rd3 labels a = rd3 labels b <-> joined (set_in nx ny nz m) a b)).

(** The whole crystal: the mask repeated in all directions. *)
Definition crystal (nx ny nz : Z) (m : arr3 bool) (v : voxel) : Prop := let '(i, j, k) := v in m (i mod nx) (j mod ny) (k mod nz) = true.

(** The image of a voxel [t] unit cells further. *)
Definition image (nx ny nz : Z) (v t : voxel) : voxel := let '(i, j, k) := v in let '(a, b, c) := t in (i + a * nx, j + b * ny, k + c * nz).

(** The voxel is joined to its own image [t] cells further. *)
Definition extends (nx ny nz : Z) (m : arr3 bool) (v t : voxel) : Prop := joined (crystal nx ny nz m) v (image nx ny nz v t).

(** At least [d] linearly independent directions. *)
Definition det3 (a b c : voxel) : Z :=
  let '(a1, a2, a3) := a in let '(b1, b2, b3) := b in let '(c1, c2, c3) := c in
  a1 * (b2 * c3 - b3 * c2) - a2 * (b1 * c3 - b3 * c1) + a3 * (b1 * c2 - b2 * c1).
Definition parallel (a b : voxel) : Prop :=
  let '(a1, a2, a3) := a in let '(b1, b2, b3) := b in a2 * b3 = a3 * b2 /\ a3 * b1 = a1 * b3 /\ a1 * b2 = a2 * b1.
Definition spans (P : voxel -> Prop) (d : nat) : Prop :=
  match d with
  | O => True
  | 1%nat => exists t, P t /\ t <> (0, 0, 0)
  | 2%nat => exists s t, P s /\ P t /\ ~ parallel s t
  | 3%nat => exists s t u, P s /\ P t /\ P u /\ det3 s t u <> 0
  | _ => False
  end.

(** The number of pairs of copies joined inside the 2x2x2 supercell. *)
Definition boxed (nx ny nz : Z) (m : arr3 bool) : voxel -> Prop := set_in (2 * nx) (2 * ny) (2 * nz) (fun i j k => m (i mod nx) (j mod ny) (k mod nz)).
Definition pairs13 : list (voxel * voxel) :=
  [((0,0,0),(1,0,0)); ((0,0,0),(0,1,0)); ((0,0,0),(0,0,1)); ((0,0,0),(1,1,0)); ((0,0,0),(1,0,1)); ((0,0,0),(0,1,1));
   ((0,0,1),(1,0,0)); ((0,0,1),(0,1,0)); ((1,0,0),(0,1,0)); ((0,0,0),(1,1,1)); ((1,0,0),(0,1,1)); ((0,1,0),(1,0,1)); ((0,0,1),(1,1,0))].
Inductive counted {A} (P : A -> Prop) : list A -> nat -> Prop :=
| counted_nil : counted P [] 0
| counted_yes x l n : P x -> counted P l n -> counted P (x :: l) (S n)
| counted_no x l n : ~ P x -> counted P l n -> counted P (x :: l) n.
Definition links (nx ny nz : Z) (m : arr3 bool) (v : voxel) (n : nat) : Prop :=
  counted (fun '(a, b) => joined (boxed nx ny nz m) (image nx ny nz v a) (image nx ny nz v b)) pairs13 n.

(** The reading of the counts. *)
Definition reads (n d : nat) : Prop :=
  (n = 0 /\ d = 0 \/ n = 1 /\ d = 1 \/ 2 <= n <= 4 /\ d = 2 \/ 6 <= n <= 13 /\ d = 3)%nat.

(** ** Cutoffs *)
(** [c] separates the cutoffs with more than [d] dimensions from the others. *)
Definition threshold (f : Q -> nat) (d : nat) (c : Q) : Prop :=
  (0 <= c <= 1 /\ (forall x, 0 <= x <= 1 -> x < c -> (d < f x)%nat) /\ (forall x, 0 <= x <= 1 -> c < x -> (f x <= d)%nat))%Q.
