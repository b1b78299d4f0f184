(** Gaussian cube files, [read_cube], [write_cube], [round_to_sig_figs] and [infer_significant_figures] of
    core/utilities/file_parsers.py (lines 41-106 and 438-624).

    A structure is its lattice and its sites: atomic number and Cartesian coordinates; the conversion to fractional
    coordinates and back, which fails for a flat lattice, is not modelled.  [None] stands for an exception.  Numbers
    are exact rationals.  [sample] stands for the random choice of line 93. *)
From Coq Require Import Ascii String QArith Qround Qabs.
From Verif Require Import Base GridModel ChargeModel NearModel TextModel GobjModel VaspModel.
Local Open Scope Z_scope.

Definition bohr : Q := 188973 # 100000.
(** The volume of a lattice is [volume] of GobjModel. *)
Record cgrid := CGrid { c_matrix : mat; c_sites : list (Z * vec); c_total : arr }.

(** ** Significant figures *)
(** Lines 41-62. *)
Definition round_sig (n : Z) (q : Q) : Q :=
  if Qeq_bool q 0 then 0%Q
  else let f := pow10 (n - 1 - floor_log q) in (inject_Z (py_round (q * f)) / f)%Q.
(** Lines 94-106. *)
Definition max_diff (n : Z) (l : list Q) : Q :=
  fold_left (fun m v => let d := Qabs (round_sig n v - v) in if Qltb m d then d else m) l 0%Q.
Fixpoint guess (fuel : nat) (n : Z) (l : list Q) : Z :=
  match fuel with
  | O => n - 1
  | S f => if Qltb (max_diff n l) (pow10 (-15)) then n else guess f (n + 1) l
  end.
(** Lines 65-106 with [max_figs = 20] and [sample_size = 1000]. *)
Definition infer (sample : list Q -> list Q) (vals : list Q) : Z :=
  let vals := filter (fun q => negb (Qeq_bool q 0)) vals in
  if is_nil vals then 20
  else guess 20 1 (if Nat.ltb 1000 (List.length vals) then sample vals else vals).

(** ** Writing *)
(** Lines 608-610; [zip] stops with the shortest list. *)
Definition atom_text (s : Z * vec) (q : Q) : text := nl (fmt_int 5 (fst s) ++ fmt_f6 12 q ++ row_text 12 (snd s)).
Definition count_text (n : Z) (v : vec) : text := nl (fmt_int 5 n ++ row_text 12 v).
Definition vscale (k : Q) (v : vec) : vec := vmap (fun x => x * k)%Q v.
Definition voxel_vector (n : Z) (v : vec) : vec := vscale bohr (vmap (fun x => x / inject_Z n)%Q v).
Definition bohr_site (s : Z * vec) : Z * vec := (fst s, vscale bohr (snd s)).
(** Lines 612-624. *)
Definition cube_row (l : list Q) : text :=
  match l with [] => [] | _ => join [newline] (map (fun c => List.concat (map (fmt_e5 13) c)) (chunks 6 l)) ++ [newline] end.
Definition cube_data (s : Z * Z * Z) (flat : list Q) : text := let '(_, _, nz) := s in List.concat (map cube_row (chunks (Z.to_nat nz) flat)).
(** Lines 575-581. *)
Definition charges_or (g : cgrid) (charges : option (list Q)) : list Q := match charges with Some l => l | None => repeat 0%Q (List.length (c_sites g)) end.
Definition origin_or (origin : option vec) : vec := match origin with Some o => o | None => (0, 0, 0)%Q end.
(** Lines 543-624.  The second component is the caller's [origin] afterwards (line 592 scales it in place). *)
Definition write_cube (g : cgrid) (charges : option (list Q)) (origin : option vec) : text * option vec :=
  let s := a_shape (c_total g) in let '(nx, ny, nz) := s in let '(a, b, c) := c_matrix g in
  let v := (volume (c_matrix g) * (bohr * bohr * bohr))%Q in
  let charges := charges_or g charges in
  let o := vscale bohr (origin_or origin) in
  (nl (lit " Gaussian cube file") ++ nl (lit " Bader charge") ++ count_text (Z.of_nat (List.length (c_sites g))) o
   ++ count_text nx (voxel_vector nx a) ++ count_text ny (voxel_vector ny b) ++ count_text nz (voxel_vector nz c)
   ++ List.concat (map (fun '(s, q) => atom_text (bohr_site s) q) (combine (c_sites g) charges))
   ++ cube_data s (map (fun q => q / v)%Q (ravel (c_total g))),
   match origin with Some _ => Some o | None => None end).

(** ** Reading *)
Definition count_line (t : text) : option (Z * vec * text) :=
  let '(l, t) := readline t in
  match split l with
  | n :: w => obnd (int_of n) (fun n => obnd (obnd (map_opt float_of w) vec_of) (fun v => Some (n, v, t)))
  | [] => None
  end.
Fixpoint atom_lines (n : nat) (t : text) : option (list (Z * Q * vec) * text) :=
  match n with
  | O => Some ([], t)
  | S n =>
      let '(l, t) := readline t in
      match split l with
      | z :: q :: w =>
          obnd (int_of z) (fun z => obnd (float_of q) (fun q => obnd (obnd (map_opt float_of w) vec_of) (fun v =>
          obnd (atom_lines n t) (fun '(r, t) => Some ((z, q, v) :: r, t)))))
      | _ => None
      end
  end.
(** Lines 438-540: grid, ion charges, origin and significant figures. *)
Definition read_cube (sample : list Q -> list Q) (file : text) : option (cgrid * list Q * vec * Z) :=
  let '(_, t) := readline file in let '(_, t) := readline t in
  obnd (count_line t) (fun '(nions, origin, t) =>
  obnd (count_line t) (fun '(n1, v1, t) => obnd (count_line t) (fun '(n2, v2, t) => obnd (count_line t) (fun '(n3, v3, t) =>
  if nions <? 0 then None
  else obnd (atom_lines (Z.to_nat nions) t) (fun '(atoms, t) =>
  let in_bohr := (0 <=? n1) && (0 <=? n2) && (0 <=? n3) in
  let nx := Z.abs n1 in let ny := Z.abs n2 in let nz := Z.abs n3 in
  let unit (v : vec) : vec := if in_bohr then vmap (fun x => x / bohr)%Q v else v in
  let m := (unit (vscale (inject_Z nx) v1), unit (vscale (inject_Z ny) v2), unit (vscale (inject_Z nz) v3)) in
  let o := unit origin in
  let sites := map (fun '(z, _, v) => (z, vsub (unit v) o)) atoms in
  let n := Z.to_nat (nx * ny * nz) in
  let vals := fromstring n t in
  if Nat.ltb (List.length vals) n then None
  else let sig := infer sample vals in
       let vol := if in_bohr then (volume m * (bohr * bohr * bohr))%Q else volume m in
       let a := reshape (nx, ny, nz) vals in
       Some (CGrid m sites (Arr (nx, ny, nz) (fun i j k => round_sig sig (a_at a i j k * vol))), map (fun '(_, q, _) => q) atoms, o, sig)))))).
