(** The gradient from all neighbours, src/baderkit/core/bader/methods/neargrid/neargrid_numba.py lines 68-124 and 245-374,
    and its use in neargrid_method.py lines 48-70 and neargrid_weight_method.py lines 57-79.

    [ps] is the pseudo-inverse [inv_norm_cart_trans], given by its columns, one for each of the first thirteen
    neighbours; the rounding of the stored gradient to float32 is not modelled. *)
From Coq Require Import QArith.
From Verif Require Import Base GridModel NeighModel RootsModel UnionModel LabelsModel NearModel.
Local Open Scope Z_scope.

Section Over.
Variables nx ny nz : Z.
Definition opp3 (s : offset) : offset := let '(x, y, z) := s in (- x, - y, - z).
(** Lines 93-111. *)
Definition over_diff (data : arr3 Q) (v : Z * Z * Z) (sd : offset * Q) : Q :=
  let '(s, d) := sd in
  let p := rd data v in
  let u := rd data (step_to nx ny nz v s) in
  let l := rd data (step_to nx ny nz v (opp3 s)) in
  if Qle_bool l p && Qle_bool u p then 0%Q else ((u - l) / (2 * d))%Q.
Definition qscale (t : Q) (v : q3) : q3 := let '(x, y, z) := v in (t * x, t * y, t * z)%Q.
(** [inv_norm_cart_trans @ diffs], line 118. *)
Definition mat_vec (ps : list q3) (diffs : list Q) : q3 :=
  fold_right (fun '(p, d) acc => q3_add (qscale d p) acc) (0, 0, 0)%Q (combine ps diffs).
(** Lines 119-124: [car2lat] is given by its rows. *)
Definition rows_vec (m : q3 * q3 * q3) (t : q3) : q3 :=
  let '(((a00, a01, a02), (a10, a11, a12)), (a20, a21, a22)) := m in let '(ti, tj, tk) := t in
  (a00 * ti + a01 * tj + a02 * tk, a10 * ti + a11 * tj + a12 * tk, a20 * ti + a21 * tj + a22 * tk)%Q.
Definition get_gradient_overdetermined (data : arr3 Q) (v : Z * Z * Z) (half : list (offset * Q)) (car2lat : q3 * q3 * q3) (ps : list q3) : q3 :=
  rows_vec car2lat (mat_vec ps (map (over_diff data v) half)).

(** Lines 298-302 and 316-372. *)
Definition over_voxel (data : arr3 Q) (nbs : list (offset * Q)) car2lat ps (v : Z * Z * Z) : q3 * (Z * Z * Z) :=
  let g := get_gradient_overdetermined data v (firstn 13 nbs) car2lat ps in
  let m := max_abs g in
  if Qltb m tiny then
    let '(s, n) := get_best_neighbor nx ny nz data v nbs in
    let '(a, b, c) := s in ((inject_Z a, inject_Z b, inject_Z c), n)
  else
    let '(a, b, c) := g in
    let g' := (a / m, b / m, c / m)%Q in
    let n := step_to nx ny nz v (round3 g') in
    (g', if Qle_bool (rd data n) (rd data v) then snd (get_best_neighbor nx ny nz data v nbs) else n).
Definition over_cell data nbs car2lat ps (vac mx : arr3 bool) (idx : nat) : option Z :=
  let v := unflat ny nz (Z.of_nat idx) in
  if rd vac v then None else if rd mx v then None
  else Some (flat ny nz (snd (over_voxel data nbs car2lat ps v))).
Definition over_gradients data nbs car2lat ps (vac mx : arr3 bool) (v : Z * Z * Z) : q3 :=
  if rd vac v then (0, 0, 0)%Q else if rd mx v then (0, 0, 0)%Q else fst (over_voxel data nbs car2lat ps v).
(** Lines 303-374: the tuple that is returned has two entries. *)
Inductive value := VLabels (l : list Z) | VGradients (g : Z * Z * Z -> q3).
Definition get_gradient_pointers_overdetermined data nbs car2lat ps vac mx (order : list nat) (labels : list Z) : list value :=
  [VLabels (par_loop (over_cell data nbs car2lat ps vac mx) order labels); VGradients (over_gradients data nbs car2lat ps vac mx)].
(** [a, b = t] and [a, b, c = t]; [None] is a ValueError. *)
Definition unpack2 {A} (t : list A) : option (A * A) := match t with [a; b] => Some (a, b) | _ => None end.
Definition unpack3 {A} (t : list A) : option (A * A * A) := match t with [a; b; c] => Some (a, b, c) | _ => None end.
End Over.
