(** Coordinate conversions, neighbour lists and boxes of [Grid]
    (src/baderkit/core/toolkit/grid.py) and the coordinate helpers of
    src/baderkit/core/utilities/basic.py.  Floats are exact rationals. *)
From Verif Require Import Base GridModel ChargeModel NearModel SurfaceModel RefineModel.
From Coq Require Import Qround.
Local Open Scope Z_scope.

(** ** Conversions, grid.py lines 1184-1292.  An N x 3 array is a list of rows. *)
Section Conversions.
Variables nx ny nz : Z.
Variable matrix : mat.
Definition det3 (m : mat) : Q :=
  let '((a, b, c), (d, e, f), (g, h, i)) := m in (a * (e * i - f * h) - b * (d * i - f * g) + c * (d * h - e * g))%Q.
(** [np.linalg.inv]: [None] stands for [LinAlgError]. *)
Definition np_inv (m : mat) : option mat :=
  let '((a, b, c), (d, e, f), (g, h, i)) := m in
  let D := det3 m in
  if Qeq_bool D 0 then None
  else Some (((e * i - f * h) / D, (c * h - b * i) / D, (b * f - c * e) / D),
             ((f * g - d * i) / D, (a * i - c * g) / D, (c * d - a * f) / D),
             ((d * h - e * g) / D, (b * g - a * h) / D, (a * e - b * d) / D))%Q.
(** Lines 1185-1201. *)
Definition cart_to_frac (cart : list vec) : option (list vec) :=
  match np_inv matrix with None => None | Some inv => Some (map (fun v => vmat v inv) cart) end.
(** Lines 1223-1239. *)
Definition frac_to_cart (frac : list vec) : list vec := map (fun v => vmat v matrix) frac.
(** Lines 1241-1257. *)
Definition over_shape (v : vec) : vec := let '(x, y, z) := v in (x / inject_Z nx, y / inject_Z ny, z / inject_Z nz)%Q.
Definition grid_to_frac (vox : list vec) : list vec := map over_shape vox.
(** Lines 1259-1274. *)
Definition times_shape (v : vec) : vec := let '(x, y, z) := v in (x * inject_Z nx, y * inject_Z ny, z * inject_Z nz)%Q.
Definition frac_to_grid (frac : list vec) : list vec := map times_shape frac.
(** Lines 1276-1292 and 1204-1221. *)
Definition grid_to_cart (vox : list vec) : list vec := frac_to_cart (grid_to_frac vox).
Definition cart_to_grid (cart : list vec) : option (list vec) := option_map frac_to_grid (cart_to_frac cart).

(** ** Neighbour lists, grid.py lines 412-488 *)
Variable root : Q -> Q.
Definition qvec (o : Z * Z * Z) : vec := let '(i, j, k) := o in (inject_Z i, inject_Z j, inject_Z k).
Definition is_zero (o : Z * Z * Z) : bool := let '(i, j, k) := o in (i =? 0) && (j =? 0) && (k =? 0).
(** Lines 424-430. *)
Definition point_neighbors : list (Z * Z * Z) := filter (fun o => negb (is_zero o)) unit3.
Definition point_neighbor_dists : list Q := map (fun v => root (norm2 v)) (grid_to_cart (map qvec point_neighbors)).
(** Lines 444-451: the loop over both lists. *)
Definition face_loop (l : list ((Z * Z * Z) * Q)) : list ((Z * Z * Z) * Q) :=
  filter (fun p : (Z * Z * Z) * Q => let '((i, j, k), _) := p in Z.abs i + Z.abs j + Z.abs k =? 1) l.
Definition face_neighbors : list ((Z * Z * Z) * Q) := face_loop (combine point_neighbors point_neighbor_dists).

(** Lines 466-488. *)
Definition images : list (Z * Z * Z) := list_prod (list_prod [- nx; 0; nx] [- ny; 0; ny]) [- nz; 0; nz].
Definition nonpos (o : Z * Z * Z) : bool := let '(i, j, k) := o in (i <=? 0) && (j <=? 0) && (k <=? 0).
Definition nonneg3 (o : Z * Z * Z) : bool := let '(i, j, k) := o in (0 <=? i) && (0 <=? j) && (0 <=? k).
Definition off_eqb (o p : Z * Z * Z) : bool :=
  let '(i, j, k) := o in let '(i', j', k') := p in (i =? i') && (j =? j') && (k =? k').
Definition first_pass : list (Z * Z * Z) := filter (fun o => nonpos o || nonneg3 o) images.
Definition second_pass : list (Z * Z * Z) :=
  fold_left (fun acc o => if existsb (off_eqb o) acc then acc else acc ++ [o]) images first_pass.
(** [l.insert(0, l.pop(i))]. *)
Definition pop_to_front {A} (i : nat) (l : list A) : option (list A) :=
  match nth_error l i with None => None | Some x => Some (x :: firstn i l ++ skipn (S i) l) end.
Definition grid_neighbor_transforms : option (list (Z * Z * Z)) := pop_to_front 7 second_pass.

(** ** [cubic_slice], lines 667-691: the voxel read for every position of the box *)
Definition arange (lo hi : Z) : list Z := map (fun t => lo + t) (zrange (hi - lo)).
Definition slice_axis (c s n : Z) : list Z := map (fun i => i mod n) (arange (c - s) (c + 2)).
Definition cubic_slice {A} (total : arr3 A) (point : Z * Z * Z) (s : Z) : list (list (list A)) :=
  let '(a, b, c) := point in
  map (fun i => map (fun j => map (fun k => total i j k) (slice_axis c s nz)) (slice_axis b s ny)) (slice_axis a s nx).

(** ** [max_point_dist], lines 306-359 *)
Definition vadd (a b : vec) : vec := let '(x, y, z) := a in let '(x', y', z') := b in (x + x', y + y', z + z')%Q.
Definition vdiv (a : vec) (q : Q) : vec := let '(x, y, z) := a in (x / q, y / q, z / q)%Q.
Definition vox_vertices : list vec :=
  let '(a, b, c) := matrix in
  let vox_a := vdiv a (inject_Z nx) in let vox_b := vdiv b (inject_Z ny) in let vox_c := vdiv c (inject_Z nz) in
  let vox_a1 := vadd vox_a vox_b in let vox_b1 := vadd vox_b vox_c in let vox_c1 := vadd vox_c vox_a in
  let fin : vec := (0, 0, 0)%Q in
  let end1 := vadd vox_a1 vox_c in
  let center := vdiv (vadd fin end1) 2 in
  map (fun v => vsub v center) [center; fin; vox_a; vox_b; vox_c; vox_a1; vox_b1; vox_c1; fin].
Definition max_point_dist : Q :=
  match map (fun v => root (norm2 v)) vox_vertices with [] => 0%Q | x :: l => fold_left qmax l x end.
End Conversions.

(** ** [merge_frac_coords], basic.py lines 107-154 *)
Definition unwrap (c ref : Q) : Q := (c - inject_Z (py_round (c - ref)))%Q.
Definition unwrap3 (ref c : vec) : vec :=
  let '(r0, r1, r2) := ref in let '(c0, c1, c2) := c in (unwrap c0 r0, unwrap c1 r1, unwrap c2 r2).
(** [round(x, 12)]. *)
Definition tera : Z := 1000000000000.
Definition round12 (q : Q) : Q := (inject_Z (py_round (q * inject_Z tera)) / inject_Z tera)%Q.
(** [None]: the division by a count of zero. *)
Definition merge_frac_coords (l : list vec) : option vec :=
  match l with
  | [] => None
  | [r] => Some (vmap mod1 r)
  | r :: _ =>
      let total := fold_left (fun t c => vadd t (unwrap3 r c)) l (0, 0, 0)%Q in
      Some (vmap (fun t => mod1 (round12 (t / inject_Z (Z.of_nat (length l))))) total)
  end.
(** [merge_frac_coords_weighted], lines 156-196: the result and the caller's weights
    afterwards; [zip] stops at the shorter list. *)
Definition merge_frac_coords_weighted (l : list vec) (values : list Q) : vec * list Q :=
  let s := qsum values in
  let values := map (fun w => (w / s)%Q) values in
  let ref := match combine l values with [] => (0, 0, 0)%Q | (r, _) :: _ => r end in
  let total := fold_left (fun t (cw : vec * Q) => vadd t (vmap (fun u => (u * snd cw)%Q) (unwrap3 ref (fst cw)))) (combine l values) (0, 0, 0)%Q in
  (vmap mod1 total, values).
(** The coordinates passed by [reduce...], shared_numba.py lines 500-518: coordinates only of
    maxima that are not false flat maxima, values of all of them. *)
Definition group_coord (l : list (vec * Q * bool)) : vec :=
  fst (merge_frac_coords_weighted (map (fun m => fst (fst m)) (filter (fun m : vec * Q * bool => negb (snd m)) l)) (map (fun m => snd (fst m)) l)).

(** ** [get_transforms_in_radius], basic.py lines 199-273 *)
Section Radius.
Variables nx ny nz : Z.
Variable lattice : mat.
Variable root : Q -> Q.
(** [np.argsort]: any sorting permutation. *)
Variable argsort : list Q -> list nat.
Definition nmax (a : vec) (r : Q) (n : Z) : Z := Qceiling (r / root (norm2 a) * inject_Z n)%Q.
Definition grid2cart : mat := let '(a, b, c) := lattice in (vdiv a (inject_Z nx), vdiv b (inject_Z ny), vdiv c (inject_Z nz)).
Definition symmetric_range (n : Z) : list Z := arange (- n) (n + 1).
Definition offset_dist (o : Z * Z * Z) : Q := round12 (root (norm2 (vmat (qvec o) grid2cart))).
Definition candidates (r : Q) : list (Z * Z * Z) :=
  let '(a, b, c) := lattice in
  flat_map (fun i => flat_map (fun j => map (fun k => (i, j, k)) (symmetric_range (nmax c r nz)))
    (symmetric_range (nmax b r ny))) (symmetric_range (nmax a r nx)).
Definition get_transforms_in_radius (r : Q) : list (Z * Z * Z) * list Q :=
  let offsets := filter (fun o => Qle_bool (offset_dist o) r) (candidates r) in
  let dists := map offset_dist offsets in
  let idx := argsort dists in
  (map (fun t => nth t offsets (0, 0, 0)) idx, map (fun t => nth t dists 0%Q) idx).
End Radius.
