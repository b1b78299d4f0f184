(** Interpolation on a periodic grid, src/baderkit/core/utilities/interpolation.py.
    Numbers are exact rationals. *)
From Verif Require Import Base GridModel NearModel.
From Coq Require Import Qround Qabs.
Local Open Scope Z_scope.

Section Interp.
Variables nx ny nz : Z.
Variable data : arr3 Q.

(** [is_frac]: lines 19-22, 41-44 and 108-111. *)
Definition to_voxel (is_frac : bool) (x : Q) (n : Z) : Q := if is_frac then (x * inject_Z n)%Q else x.

(** [interp_nearest], lines 16-30. *)
Definition interp_nearest (i j k : Q) (is_frac : bool) : Q :=
  data (py_round (to_voxel is_frac i nx) mod nx) (py_round (to_voxel is_frac j ny) mod ny) (py_round (to_voxel is_frac k nz) mod nz).

(** [wrap_point] (utilities/basic.py lines 26-67) on floating point coordinates. *)
Definition wrapq (i : Q) (n : Z) : Q :=
  if Qle_bool (inject_Z n) i then (i - inject_Z n)%Q else if Qltb i 0 then (i + inject_Z n)%Q else i.

(** [interp_linear], lines 36-79. *)
Definition interp_linear (i j k : Q) (is_frac : bool) : Q :=
  let i := wrapq (to_voxel is_frac i nx) nx in
  let j := wrapq (to_voxel is_frac j ny) ny in
  let k := wrapq (to_voxel is_frac k nz) nz in
  let ri := Qfloor i in let rj := Qfloor j in let rk := Qfloor k in
  let di := (i - inject_Z ri)%Q in let dj := (j - inject_Z rj)%Q in let dk := (k - inject_Z rk)%Q in
  let v000 := data ri rj rk in
  let v100 := data ((ri + 1) mod nx) rj rk in
  let v010 := data ri ((rj + 1) mod ny) rk in
  let v001 := data ri rj ((rk + 1) mod nz) in
  let v110 := data ((ri + 1) mod nx) ((rj + 1) mod ny) rk in
  let v101 := data ((ri + 1) mod nx) rj ((rk + 1) mod nz) in
  let v011 := data ri ((rj + 1) mod ny) ((rk + 1) mod nz) in
  let v111 := data ((ri + 1) mod nx) ((rj + 1) mod ny) ((rk + 1) mod nz) in
  ((1 - di) * (1 - dj) * (1 - dk) * v000
   + di * (1 - dj) * (1 - dk) * v100
   + (1 - di) * dj * (1 - dk) * v010
   + (1 - di) * (1 - dj) * dk * v001
   + di * dj * (1 - dk) * v110
   + di * (1 - dj) * dk * v101
   + (1 - di) * dj * dk * v011
   + di * dj * dk * v111)%Q.

(** [cubic_bspline_weights], lines 87-101: one direction. *)
Definition bspline_weight (o : Z) (d : Q) : Q :=
  let x := Qabs (inject_Z (o - 1) - d)%Q in
  if Qltb x 1 then ((4 - 6 * x * x + 3 * x * x * x) / 6)%Q
  else if Qltb x 2 then let t := (2 - x)%Q in ((t * t * t) / 6)%Q
  else 0%Q.

Definition offs4 : list Z := [0; 1; 2; 3].
(** [interp_spline], lines 104-146. *)
Definition interp_spline (i j k : Q) (is_frac : bool) : Q :=
  let i := to_voxel is_frac i nx in let j := to_voxel is_frac j ny in let k := to_voxel is_frac k nz in
  let ri := Qfloor i in let rj := Qfloor j in let rk := Qfloor k in
  let di := (i - inject_Z ri)%Q in let dj := (j - inject_Z rj)%Q in let dk := (k - inject_Z rk)%Q in
  let tmp := fun joff koff =>
    let yj := (rj - 1 + joff) mod ny in let zk := (rk - 1 + koff) mod nz in
    fold_left (fun s ioff => (s + bspline_weight ioff di * data ((ri - 1 + ioff) mod nx) yj zk)%Q) offs4 0%Q in
  fold_left (fun val joff =>
    fold_left (fun val koff => (val + bspline_weight joff dj * bspline_weight koff dk * tmp joff koff)%Q) offs4 val) offs4 0%Q.
End Interp.

(** [interpolate_points], lines 173-195: a parallel loop over the points. *)
Inductive method := Nearest | Linear | Cubic.
Definition interpolate (m : method) (nx ny nz : Z) (data : arr3 Q) (p : Q * Q * Q) (is_frac : bool) : Q :=
  let '(i, j, k) := p in
  match m with
  | Nearest => interp_nearest nx ny nz data i j k is_frac
  | Linear => interp_linear nx ny nz data i j k is_frac
  | Cubic => interp_spline nx ny nz data i j k is_frac
  end.
(** [empty] is the content of the freshly allocated array. *)
Definition interpolate_points (points : list (Q * Q * Q)) (m : method) (nx ny nz : Z) (data : arr3 Q) (is_frac : bool)
  (order : list nat) (empty : list Q) : list Q :=
  par_loop (fun x => match nth_error points x with Some p => Some (interpolate m nx ny nz data p is_frac) | None => None end) order empty.

(** [np.linspace] and [linear_slice], lines 198-213. *)
Definition linspace (a b : Q) (n : nat) : list Q :=
  map (fun t => if Nat.eqb n 1%nat then a else (a + (b - a) * (inject_Z (Z.of_nat t) / inject_Z (Z.of_nat n - 1)))%Q) (seq 0%nat n).
Definition linear_slice (nx ny nz : Z) (data : arr3 Q) (p1 p2 : Q * Q * Q) (n : nat) (is_frac : bool) (m : method)
  (order : list nat) (empty : list Q) : list Q :=
  let '(x1, y1, z1) := p1 in let '(x2, y2, z2) := p2 in
  interpolate_points (combine (combine (linspace x1 x2 n) (linspace y1 y2 n)) (linspace z1 z2 n)) m nx ny nz data is_frac order empty.
