(** Grids written per basin or atom, and distances to basin surfaces. *)
From Verif Require Import Base GridModel NeighModel ChargeModel LabelsModel NearModel.

(** ** Written volumes (bader.py lines 1020-1415).  A written file is its name suffix and
    the array in it; the data keep their values on the selected voxels and are 0 elsewhere. *)
Definition np_isin (l : list Z) (x : Z) : bool := existsb (Z.eqb x) l.
(** Lines 1063-1069 (basins) and 1230-1236 (atoms): one file per index. *)
Definition write_volumes (data : arr3 Q) (labels : arr3 Z) (indices : list Z) : list (Z * arr3 Q) :=
  map (fun b => (b, fun i j k => if negb (labels i j k =? b) then 0%Q else data i j k)) indices.
(** Lines 1168-1172 and 1339-1341. *)
Definition write_volumes_sum (data : arr3 Q) (labels : arr3 Z) (indices : list Z) : arr3 Q :=
  fun i j k => if negb (np_isin indices (labels i j k)) then 0%Q else data i j k.
(** [write_all_basin_volumes], line 1114: the significant basins. *)
Definition write_all_basins (data : arr3 Q) (labels : arr3 Z) (significant : list bool) : list (Z * arr3 Q) :=
  write_volumes data labels
    (map Z.of_nat (filter (fun b => nth b significant false) (seq 0 (length significant)))).
(** [write_all_atom_volumes], lines 1251-1293. *)
Definition write_all_atoms (data : arr3 Q) (labels : arr3 Z) (natoms : nat) : list (Z * arr3 Q) :=
  write_volumes data labels (map Z.of_nat (seq 0 natoms)).
(** [write_species_volume], lines 1390-1404; [symbols] lists the species of the atoms. *)
Definition write_species {S} (eqb : S -> S -> bool) (data : arr3 Q) (labels : arr3 Z) (symbols : list S) (s : S) : arr3 Q :=
  let indices := map fst (filter (fun iz : Z * S => eqb (snd iz) s) (combine (map Z.of_nat (seq 0 (length symbols))) symbols)) in
  fun i j k => if negb (np_isin indices (labels i j k)) then 0%Q else data i j k.
(** [Badelf.write_atom_volumes], badelf.py lines 1236-1245: the grid is changed in place
    from one file to the next. *)
Fixpoint badelf_write (grid : arr3 Q) (labels : arr3 Z) (indices : list Z) : list (Z * arr3 Q) :=
  match indices with
  | [] => []
  | a :: rest =>
      let grid' := fun i j k => if labels i j k =? a then 0%Q else grid i j k in
      (a, grid') :: badelf_write grid' labels rest
  end.

(** ** [get_min_avg_surface_dists], shared_numba.py lines 546-595 *)
Section Surface.
Variables nx ny nz : Z.
(** The square root is a parameter. *)
Variable root : Q -> Q.
Variable matrix : mat.
Definition frac_diff (c : Q) (i n : Z) : Q := let d := (c - inject_Z i / inject_Z n)%Q in (d - inject_Z (py_round d))%Q.
Definition cart (d : vec) : vec :=
  let '(di, dj, dk) := d in let '((a0, a1, a2), (b0, b1, b2), (c0, c1, c2)) := matrix in
  (di * a0 + dj * b0 + dk * c0, di * a1 + dj * b1 + dk * c1, di * a2 + dj * b2 + dk * c2)%Q.
Definition sq_norm (v : vec) : Q := let '(x, y, z) := v in (x * x + y * y + z * z)%Q.
Definition sq_dist (frac : vec) (v : Z * Z * Z) : Q :=
  let '(f0, f1, f2) := frac in let '(i, j, k) := v in
  sq_norm (cart (frac_diff f0 i nx, frac_diff f1 j ny, frac_diff f2 k nz)).

Record sstate := { u_dists : list Q; u_sums : list Q; u_totals : list Q }.
Definition np_add (a : list Q) (i : Z) (x : Q) : list Q :=
  match np_idx (length a) i with Some k => add_at a k x | None => a end.
Definition np_low (a : list Q) (i : Z) (x : Q) : list Q :=
  match np_idx (length a) i with Some k => if Qltb x (nth k a 0%Q) then upd a k x else a | None => a end.
Definition surf_step (labels : arr3 Z) (coords : list vec) (edge : arr3 bool) (st : sstate) (v : Z * Z * Z) : sstate :=
  if negb (rd edge v) then st
  else
    let label := rd labels v in
    let frac := match np_get coords label with Some f => f | None => (0, 0, 0)%Q end in
    let dist := root (sq_dist frac v) in
    {| u_dists := np_low (u_dists st) label dist; u_sums := np_add (u_sums st) label dist;
       u_totals := np_add (u_totals st) label 1 |}.
Definition get_min_avg_surface_dists (labels : arr3 Z) (coords : list vec) (edge : arr3 bool) (max_value : Q) : list Q * list Q :=
  let n := length coords in
  let st := fold_left (surf_step labels coords edge) (voxels nx ny nz)
    {| u_dists := repeat max_value n; u_sums := repeat 0%Q n; u_totals := repeat 0%Q n |} in
  (u_dists st, map (fun ab => fst ab / snd ab)%Q (combine (u_sums st) (u_totals st))).
End Surface.
