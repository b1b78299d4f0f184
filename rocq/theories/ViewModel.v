(** The three-dimensional plots, src/baderkit/plotting/core/plotter.py.

    What pyvista draws is not modelled; what is handed to it is: the positions of the spheres, the corners and edges of
    the cell, the camera, the points and values of the structured grid, and the actors of the atoms.  Floats are exact
    rationals, [root] is the square root, the cosine and sine of the rotation are parameters.  A Python set is a list
    whose order means nothing. *)
From Coq Require Import QArith Qabs Qround Qminmax.
From Verif Require Import Base GridModel ChargeModel NearModel RefineModel CoordModel TextModel VaspModel StructModel.
Local Open Scope Z_scope.

(** ** Images of atoms at the border of the cell, lines 430-455 *)
Definition qlt (a b : Q) : bool := negb (Qle_bool b a).
Definition edge_shifts (tol x : Q) : list Z :=
  if qlt (Qabs x) tol then [0; 1] else if qlt (Qabs (x - 1)) tol then [0; -1] else [0].
Definition add_shift (v : vec) (s : Z * Z * Z) : vec :=
  let '(x, y, z) := v in let '(a, b, c) := s in (x + inject_Z a, y + inject_Z b, z + inject_Z c)%Q.
Definition all_shifts (tol : Q) (v : vec) : list (Z * Z * Z) :=
  let '(x, y, z) := v in list_prod (list_prod (edge_shifts tol x) (edge_shifts tol y)) (edge_shifts tol z).
Definition get_edge_atom_fracs (tol : Q) (v : vec) : list vec := map (add_shift v) (all_shifts tol v).

(** ** The camera, lines 457-529 *)
Definition vadd (a b : vec) : vec := let '(x, y, z) := a in let '(u, v, w) := b in (x + u, y + v, z + w)%Q.
Definition vdot (a b : vec) : Q := let '(x, y, z) := a in let '(u, v, w) := b in (x * u + y * v + z * w)%Q.
Definition scaled (t : Q) (v : vec) : vec := let '(x, y, z) := v in (t * x, t * y, t * z)%Q.
Definition far_corner (m : mat) : vec := let '(a, b, c) := m in vadd (vadd a b) c.
Definition max_radius (radii : list Q) : option Q :=
  match radii with [] => None | r :: l => Some (fold_left Qmax l r) end.
(** Lines 509-517. *)
Definition along (axis v : vec) : vec := vsub axis (scaled (vdot axis v) v).
Definition view_up (root : Q -> Q) (v : vec) : vec :=
  let up := along (0, 0, 1)%Q v in
  if qlt (root (norm2 up)) (1 # 100000000000000) then along (0, 1, 0)%Q v else up.
(** Lines 519-524. *)
Definition rotated (c s : Q) (v up : vec) : vec := vadd (scaled c up) (scaled s (mcross v up)).
(** [None] is a ValueError of [max]. *)
Definition camera (root : Q -> Q) (m : mat) (radii : list Q) (h k l : Z) (c s : Q) : option (vec * vec * vec) :=
  let '(h, k, l) := if (h =? 0) && (k =? 0) && (l =? 0) then (1, 0, 0) else (h, k, l) in
  obnd (get_cart_from_miller root m h k l) (fun v =>
  obnd (max_radius radii) (fun r =>
    let '(va, vb, vc) := m in
    let dist := (root (norm2 va) + root (norm2 vb) + root (norm2 vc) + r)%Q in
    let focal := vmap (fun x => x / 2)%Q (far_corner m) in
    Some (vadd focal (scaled dist v), focal, rotated c s v (view_up root v)))).

(** ** The outline of the cell, lines 583-618 *)
Definition mesh_corners (m : mat) : list vec :=
  let '(a, b, c) := m in [(0, 0, 0)%Q; a; b; c; vadd a b; vadd a c; vadd b c; vadd (vadd a b) c].
Definition mesh_edges : list (nat * nat) :=
  [(0, 1); (0, 2); (0, 3); (1, 4); (1, 5); (2, 4); (2, 6); (3, 5); (3, 6); (4, 7); (5, 7); (6, 7)]%nat.
Definition lattice_lines (m : mat) : list (vec * vec) :=
  map (fun '(i, j) => (nth i (mesh_corners m) (0, 0, 0)%Q, nth j (mesh_corners m) (0, 0, 0)%Q)) mesh_edges.

(** ** The structured grid, lines 880-928 *)
Section Structured.
Variables nx ny nz : Z.
Variable matrix : mat.
(** [np.pad(a, ((0, 1), (0, 1), (0, 1)), mode="wrap")] of an array of shape [nx, ny, nz]. *)
Definition padded {A} (a : arr3 A) : arr3 A := fun i j k =>
  a (if i =? nx then 0 else i) (if j =? ny then 0 else j) (if k =? nz then 0 else k).
Definition size : Z := (nx + 1) * (ny + 1) * (nz + 1).
(** The index of element [p] in Fortran order. *)
Definition f_index (p : Z) : Z * Z * Z := (p mod (nx + 1), (p / (nx + 1)) mod (ny + 1), p / ((nx + 1) * (ny + 1))).
Definition zseq (n : Z) : list Z := map Z.of_nat (seq 0 (Z.to_nat n)).
Definition ravel_F {A} (a : arr3 A) : list A := map (fun p => let '(i, j, k) := f_index p in a i j k) (zseq size).
(** [np.indices(shape).reshape(3, -1, order="F").T]: entry [a] of row [p] is element [a + 3 p] in Fortran order of the
    array of shape [3, nx + 1, ny + 1, nz + 1] whose entry [a, i, j, k] is [i], [j] or [k]. *)
Definition np_indices (a i j k : Z) : Z := if a =? 0 then i else if a =? 1 then j else k.
Definition f_index4 (q : Z) : Z * Z * Z * Z :=
  (q mod 3, (q / 3) mod (nx + 1), (q / (3 * (nx + 1))) mod (ny + 1), q / (3 * (nx + 1) * (ny + 1))).
Definition reshaped (a p : Z) : Z := let '(b, i, j, k) := f_index4 (a + 3 * p) in np_indices b i j k.
Definition indices_F : list vec := map (fun p => qvec (reshaped 0 p, reshaped 1 p, reshaped 2 p)) (zseq size).
Definition grid_points : list vec := grid_to_cart nx ny nz matrix indices_F.
Definition grid_values (total : arr3 Q) : list Q := ravel_F (padded total).

(** ** Hidden regions, lines 1405-1490 *)
Definition isin (visible : list Z) (b : Z) : bool := existsb (Z.eqb b) visible.
Definition hidden_mask (basins atoms : arr3 Z) (vb va : list Z) : list bool :=
  map (fun '(b, a) => negb (isin vb b || isin va a)) (combine (ravel_F (padded basins)) (ravel_F (padded atoms))).
Definition shown_values (values : list Q) (mask : list bool) : list Q :=
  map (fun '(v, h) => if h : bool then (-1)%Q else v) (combine values mask).
(** Lines 1414-1416. *)
Definition initial_basins (basin_atoms : list Z) : list Z :=
  map fst (filter (fun '(_, a) => a =? 0) (combine (map Z.of_nat (seq 0 (length basin_atoms))) basin_atoms)).
End Structured.

(** ** The range and the value of the isosurface, lines 883-889, 1028-1055 and 1143-1150 *)
Record scale := { sc_min : Q; sc_max : Q; sc_iso : Q }.
Definition list_min (l : list Q) : Q := match l with [] => 0%Q | x :: l => fold_left Qmin l x end.
Definition list_max (l : list Q) : Q := match l with [] => 0%Q | x :: l => fold_left Qmax l x end.
Definition init_scale (values : list Q) : scale :=
  let m := list_min values in let m := (m + (1 # 10000000) * m)%Q in {| sc_min := m; sc_max := list_max values; sc_iso := m |}.
Definition set_min (x : Q) (s : scale) : scale := {| sc_min := Qmin (sc_max s) x; sc_max := sc_max s; sc_iso := sc_iso s |}.
Definition set_max (x : Q) (s : scale) : scale := {| sc_min := sc_min s; sc_max := Qmax (sc_min s) x; sc_iso := sc_iso s |}.
Definition set_iso (x : Q) (s : scale) : scale :=
  {| sc_min := sc_min s; sc_max := sc_max s; sc_iso := Qmax (sc_min s) (Qmin x (sc_max s)) |}.

(** ** Slices, lines 1327-1351: [spacing] is pymatgen's [d_hkl]; the atoms that are drawn. *)
Definition slice_origin (normal : vec) (spacing d : Q) : vec := scaled d (scaled spacing normal).
Definition slice_atom (normal origin : vec) (center : vec) (radius : Q) : bool :=
  Qle_bool (Qabs (vdot (vsub center origin) normal)) radius.

(** ** Fitting the camera, lines 800-828, for a renderer whose bounds are [lo] and [hi]: the parallel scale, half the
    height of what is seen; [aspect] times it is half the width. *)
Definition parallel_scale (lo hi direction up : vec) (aspect padding : Q) : Q :=
  let bbox := vsub hi lo in
  let horizontal := mcross direction up in
  let vert := Qabs (vdot bbox up) in
  let horiz := Qabs (vdot bbox horizontal) in
  ((Qmax (horiz / aspect) vert) / 2 * (1 + padding))%Q.

(** ** The actors of the atoms, lines 102-114, 246-347; colours are numbers.  Atom [i] has the actor [i]: the labels are
    unique ([relabel_sites], line 69). *)
Record actor := { ac_visible : bool; ac_radius : Q; ac_color : Z }.
Record scene := { sc_visible : list nat; sc_radii : list Q; sc_colors : list Z; sc_actors : list actor }.
Definition indexed {A} (l : list A) : list (nat * A) := combine (seq 0 (length l)) l.
Definition is_in (l : list nat) (i : nat) : bool := existsb (Nat.eqb i) l.
(** Lines 620-664: a new plot of the current settings. *)
Definition drawn (s : scene) : list actor :=
  map (fun '(i, (r, c)) => {| ac_visible := is_in (sc_visible s) i; ac_radius := r * (3 # 10); ac_color := c |})
    (indexed (combine (sc_radii s) (sc_colors s))).
Definition set_visible (v : list nat) (s : scene) : scene :=
  {| sc_visible := v; sc_radii := sc_radii s; sc_colors := sc_colors s;
     sc_actors := map (fun '(i, a) => {| ac_visible := is_in v i; ac_radius := ac_radius a; ac_color := ac_color a |}) (indexed (sc_actors s)) |}.
Definition set_colors (c : list Z) (s : scene) : scene :=
  {| sc_visible := sc_visible s; sc_radii := sc_radii s; sc_colors := c;
     sc_actors := map (fun '(i, a) => match nth_error (sc_colors s) i, nth_error c i with
       | Some o, Some n => if o =? n then a else {| ac_visible := ac_visible a; ac_radius := ac_radius a; ac_color := n |}
       | _, _ => a end) (indexed (sc_actors s)) |}.
(** A new mesh is added, which is visible. *)
Definition fix_radii (r : list Q) : list Q := map (fun x => if Qle_bool x 0 then (1 # 100)%Q else x) r.
Definition set_radii (r : list Q) (s : scene) : scene :=
  let r := fix_radii r in
  {| sc_visible := sc_visible s; sc_radii := r; sc_colors := sc_colors s;
     sc_actors := map (fun '(i, a) => match nth_error (sc_radii s) i, nth_error r i, nth_error (sc_colors s) i with
       | Some o, Some n, Some c => if Qeq_bool o n then a else {| ac_visible := true; ac_radius := n * (3 # 10); ac_color := c |}
       | _, _, _ => a end) (indexed (sc_actors s)) |}.
(** Lines 307-347. *)
Definition get_df (s : scene) : list bool * list Z * list Q :=
  (map (is_in (sc_visible s)) (seq 0 (length (sc_actors s))), sc_colors s, sc_radii s).
Definition set_df (df : list bool * list Z * list Q) (s : scene) : scene :=
  let '(v, c, r) := df in
  set_radii r (set_colors c (set_visible (map fst (filter (fun '(_, b) => b) (indexed v))) s)).
