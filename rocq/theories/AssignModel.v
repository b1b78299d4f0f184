(** The driver of the BadELF assignment, core/badelf/badelf.py lines 462-560
    ([_get_voxel_assignments]), with the planes of lines 388-445 ([partitioning_planes]).

    Simplifications: [zero_flux] is [_zero_flux_feature_labels] and [labeler] the result of
    [elf_labeler.get_charges_and_volumes]; both grids have the same shape; [volume] is the volume of the
    structure; [order] and [perm] are the order in which the planes were visited in parallel and the
    result of [np.lexsort]; distances are compared exactly. *)
From Coq Require Import QArith.
From Verif Require Import Base GridModel RootsModel UnionModel ChargeModel CoordModel NearModel WeightModel RefineModel PlaneModel GobjModel BadelfModel.
Local Open Scope Z_scope.

Inductive choice := ZeroFlux | Planes (m : method).

Section Assign.
Variables nx ny nz : Z.
(** [reference_grid.matrix] and the lattice of the structure. *)
Variables m lattice : mat.
Variable root : Q -> Q.
Variable argsort : list Q -> list nat.

(** Lines 516-521. *)
Definition voxel_dist : Q := (max_point_dist nx ny nz m root + 1 / inject_Z tera)%Q.
Definition min_radius : Q := (voxel_dist * 2)%Q.
Definition max_radius : Q :=
  let '(a, b, c) := lattice in qmin (qmin_list (map (fun v => root (norm2 v) / 2) [a; b; c])%Q) 3%Q.

(** Lines 522-527. *)
Definition sphere : list (voxel * Q) :=
  let (offs, ds) := get_transforms_in_radius nx ny nz m root argsort max_radius in
  filter (fun d => Qle_bool min_radius (snd d)) (combine offs ds).

(** Line 530. *)
Fixpoint breaks_from (i : nat) (ds : list Q) : list nat :=
  match ds with
  | a :: t => match t with
              | b :: _ => if Qeq_bool a b then breaks_from (S i) t else i :: breaks_from (S i) t
              | [] => []
              end
  | [] => []
  end.
Definition transform_breaks : list nat := breaks_from 0 (map snd sphere).

(** Lines 388-445. *)
Definition partitioning_planes (order : list (plane * (nat * (Z * Z * Z)))) (perm : list nat) (planes : list plane) : outcome (list part) :=
  obind (cell_wrapped order planes) (fun ws => Done (order_planes root m perm ws)).

(** Lines 473-560: [natoms] and [nsites] are the lengths of the structure and of the structure with
    electrides. *)
Definition voxel_assignments (c : choice) order perm (planes : list plane) (data : arr3 Q) (zero_flux : arr3 Z) (vacuum : arr3 bool)
    (labeler : outcome (list Q * list Q)) (natoms nsites : nat) (volume : Q) : outcome (arr3 Z * list Q * list Q) :=
  match c with
  | ZeroFlux => obind labeler (fun '(ch, vo) => Done (zero_flux, ch, vo))
  | Planes me =>
      obind (partitioning_planes order perm planes) (fun parts =>
      let '(labels, max_label) := prepare me natoms nsites zero_flux in
      obind (get_badelf_assignments nx ny nz argsort data labels parts vacuum voxel_dist nsites m sphere transform_breaks max_label)
        (fun '(lab, ch, vo) =>
        let n := inject_Z (nx * ny * nz) in
        Done (lab, map (fun x => x / n)%Q ch, map (fun x => x * volume / n)%Q vo)))
  end.
End Assign.
