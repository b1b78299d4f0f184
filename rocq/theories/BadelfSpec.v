(** What the BadELF assignment should do. *)
From Coq Require Import QArith.
From Verif Require Import Base GridModel RootsModel UnionModel ChargeModel CoordModel NearModel WeightModel RefineModel PlaneModel BadelfModel.
Local Open Scope Z_scope.

(** ** Partitions *)
Definition same_part (x y : part) : Prop := pt_site x = pt_site y /\ pt_trans x = pt_trans y.
(** All planes with the site and translation of [x] lie at least [mind] above [p]. *)
Definition encloses (mind : Q) (p : vec) (planes : list part) (x : part) : Prop :=
  forall y, In y planes -> same_part x y -> (plane_dist p (pt_eqn y) <= - mind)%Q.
(** Planes of one site and translation are consecutive. *)
Definition grouped (planes : list part) : Prop := forall i j k x y z, (i < j < k)%nat ->
  nth_error planes i = Some x -> nth_error planes j = Some y -> nth_error planes k = Some z ->
  same_part x z -> same_part x y.

(** Lexicographic order of (site, translation, volume). *)
Definition key_le (a b : wrapped) : Prop :=
  (w_site a < w_site b)%nat \/
  (w_site a = w_site b /\ ((w_trans a < w_trans b)%nat \/ (w_trans a = w_trans b /\ (w_volume a <= w_volume b)%Q))).
Definition lexsorts (perm : list nat) (ws : list wrapped) : Prop :=
  Permutation perm (seq 0 (length ws)) /\ StronglySorted key_le (map (fun i => nth i ws no_plane) perm).

(** ** Sums over the grid *)
Definition site_sum (f : voxel -> Q) (lab : voxel -> Z) (s : Z) (l : list voxel) : Q :=
  qsum (map (fun v => if lab v =? s then f v else 0%Q) l).

(** ** Neighbours of a voxel *)
Section Near.
Variables nx ny nz : Z.
Variable max_label : nat.
Definition neigh (v d : voxel) : voxel :=
  let '(i, j, k) := v in let '(a, b, c) := d in ((i + a) mod nx, (j + b) mod ny, (k + c) mod nz).
(** Neighbours with a usable label, and the inverse distances that count for site [s]. *)
Definition usable (labels : arr3 Z) (v : voxel) (d : voxel * Q) : Prop :=
  0 <= rd3 labels (neigh v (fst d)) < Z.of_nat max_label.
Definition weight (labels : arr3 Z) (v : voxel) (s : Z) (l : list (voxel * Q)) : Q :=
  qsum (map (fun d => if rd3 labels (neigh v (fst d)) =? s then (1 / snd d)%Q else 0%Q) l).
Definition total_weight (labels : arr3 Z) (v : voxel) (l : list (voxel * Q)) : Q :=
  qsum (map (fun s => weight labels v (Z.of_nat s) l) (seq 0 max_label)).
Definition hit (labels : arr3 Z) (v : voxel) (l : list (voxel * Q)) : Prop := exists d, In d l /\ usable labels v d.
(** The shells searched: the first [S b] transforms, for the first break [b] at which there is a hit. *)
Definition reached (labels : arr3 Z) (v : voxel) (trans : list (voxel * Q)) (breaks : list nat) (b : nat) : Prop :=
  In b breaks /\ hit labels v (firstn (S b) trans) /\
  forall b', In b' breaks -> (b' < b)%nat -> ~ hit labels v (firstn (S b') trans).
End Near.

Definition share (s : Z) (row : list (Z * Q)) : Q := qsum (map (fun '(t, f) => if t =? s then f else 0%Q) row).

(** Voxels left for the second stage, in grid order. *)
Definition open_voxels (nx ny nz : Z) (labels : arr3 Z) (vacuum : arr3 bool) : list voxel :=
  filter (fun v => (rd3 labels v =? -1) && negb (rd3 vacuum v)) (voxels nx ny nz).
(** The distances are positive and the breaks are increasing positions in the list. *)
Definition shells (trans : list (voxel * Q)) (breaks : list nat) : Prop :=
  (forall e, In e trans -> (0 < snd e)%Q) /\ StronglySorted lt breaks /\ breaks <> [] /\ forall b, In b breaks -> (b < length trans)%nat.
(** At most ten different sites among the usable neighbours. *)
Definition few_sites nx ny nz max_label (labels : arr3 Z) (v : voxel) (l : list (voxel * Q)) : Prop :=
  exists sites, NoDup sites /\ (length sites <= 10)%nat /\
    forall d, In d l -> usable nx ny nz max_label labels v d -> In (rd3 labels (neigh nx ny nz v (fst d))) sites.
Definition fraction nx ny nz max_label (labels : arr3 Z) (v : voxel) (l : list (voxel * Q)) (s : Z) : Q :=
  (weight nx ny nz labels v s l / total_weight nx ny nz max_label labels v l)%Q.
