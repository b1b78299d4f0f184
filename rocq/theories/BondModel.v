(** Symmetry of bonds, core/utilities/voronoi.py lines 268-563.

    Coordinates are exact rationals; [root] is the square root ([norm]).  Sites are natural numbers within the arrays,
    except for the -1 of [find_site_in_tol], which selects the last entry.  Parallel loops run in any order. *)
From Coq Require Import QArith Qround.
From Verif Require Import Base ChargeModel NearModel RootsModel RefineModel PlaneModel EnvModel.
Local Open Scope Z_scope.

Definition chunk := (Z * Z * Z)%type.
Definition chunk_eqb (a b : chunk) : bool := let '(x, y, z) := a in let '(u, v, w) := b in (Z.abs (x - u) + Z.abs (y - v) + Z.abs (z - w) =? 0).
Definition chunk_of (tol : Q) (v : vec) : chunk := let '(x, y, z) := v in (py_round (x / tol), py_round (y / tol), py_round (z / tol)).
(** find_site_in_tol, lines 268-284. *)
Fixpoint find_chunk (c : chunk) (cs : list chunk) (j : Z) : Z :=
  match cs with [] => -1 | d :: cs => if chunk_eqb c d then j else find_chunk c cs (j + 1) end.
Definition find_site_in_tol (cs : list chunk) (v : vec) (tol : Q) : Z := find_chunk (chunk_of tol v) cs 0.

(** get_canonical_displacement, lines 287-301. *)
Definition unround (x : Q) : Q := (x - inject_Z (py_round x))%Q.
Definition lex_positive (v : chunk) : chunk :=
  let '(x, y, z) := v in
  if (x <? 0) || ((x =? 0) && (y <? 0)) || ((x =? 0) && (y =? 0) && (z <? 0)) then (- x, - y, - z) else v.
Definition get_canonical_displacement (d : vec) (tol : Q) : chunk := lex_positive (chunk_of tol (vmap unround d)).

(** [matrix @ v + vector]. *)
Definition vdot3 (a b : vec) : Q := let '(x, y, z) := a in let '(u, v, w) := b in (x * u + y * v + z * w)%Q.
Definition op := (mat * vec)%type.
Definition apply_op (o : op) (v : vec) : vec := let '((r1, r2, r3), (t1, t2, t3)) := o in (vdot3 r1 v + t1, vdot3 r2 v + t2, vdot3 r3 v + t3)%Q.

(** get_canonical_bond, lines 304-374. *)
Record rep := mkRep { r_inv : Z; r_lo : Z; r_hi : Z; r_disp : chunk; r_len : Z }.
(** Lines 363-371. *)
Definition better (d best : chunk) : bool :=
  let '(x, y, z) := d in let '(a, b, c) := best in negb (x >? a) && negb (y >? b) && negb (z >? c).
(** Lines 343-371: the displacement after trying an operation. *)
Definition try_op (site neigh : vec) (tol : Q) (best : chunk) (o : op * bool) : chunk :=
  if snd o then
    let d := get_canonical_displacement (vsub (apply_op (fst o) neigh) (apply_op (fst o) site)) tol in
    if better d best then d else best
  else best.
Definition get_canonical_bond (site_idx neigh_idx : nat) (neigh : vec) (fracs : list vec) (equiv : list Z) (ops : list op) (included : list bool) (dist tol : Q) : rep :=
  let site := nth site_idx fracs (0, 0, 0)%Q in
  let es := nth site_idx equiv 0 in
  let en := nth neigh_idx equiv 0 in
  let d := fold_left (try_op site neigh tol) (combine ops included) (get_canonical_displacement (vsub neigh site) tol) in
  if es <=? en then mkRep 0 es en d (py_round (dist / tol)) else mkRep 1 en es d (py_round (dist / tol)).

(** get_canonical_bonds, lines 377-453. *)
Record bond := mkBond { b_site : nat; b_neigh : nat; b_coord : vec; b_dist : Q }.
(** Lines 408-427: the row of the mask of a site. *)
Definition site_ops (fracs : list vec) (equiv : list Z) (ops : list op) (tol : Q) (site : nat) : list bool :=
  map (fun o => find_site_in_tol (map (chunk_of tol) fracs) (vmap mod1 (apply_op o (nth site fracs (0, 0, 0)%Q))) tol =? nth site equiv 0) ops.
(** [symm_op_mask[unique_map[site_idx]]], lines 397-427 and 438. *)
Definition mask_row (fracs : list vec) (equiv : list Z) (ops : list op) (tol : Q) (bonds : list bond) (order : list nat) (site : nat) : list bool :=
  let unique := np_unique (map (fun b => Z.of_nat (b_site b)) bonds) in
  let mask := par_loop (fun u => option_map (fun s => site_ops fracs equiv ops tol (Z.to_nat s)) (nth_error unique u)) order (repeat (repeat false (length ops)) (length unique)) in
  nth (Z.to_nat (index_of (Z.of_nat site) unique)) mask [].
Definition get_canonical_bonds (bonds : list bond) (fracs : list vec) (equiv : list Z) (ops : list op) (tol : Q) (order1 order2 : list nat) : list rep :=
  par_loop (fun i => option_map (fun b => get_canonical_bond (b_site b) (b_neigh b) (b_coord b) fracs equiv ops (mask_row fracs equiv ops tol bonds order1 (b_site b)) (b_dist b) tol) (nth_error bonds i))
    order2 (repeat (mkRep 0 0 0 (0, 0, 0) 0) (length bonds)).

(** generate_symmetric_bonds, lines 456-563. *)
Definition vfloor (v : vec) : Z * Z * Z := let '(x, y, z) := v in (Qfloor x, Qfloor y, Qfloor z).
Definition vsubz (v : vec) (s : Z * Z * Z) : vec := let '(x, y, z) := v in let '(a, b, c) := s in (x - inject_Z a, y - inject_Z b, z - inject_Z c)%Q.
Definition vaddq (v : vec) (q : Q) : vec := vmap (fun x => x + q)%Q v.
(** Lines 497-513 (and 518-533): the site at a position and the cell it lies in. *)
Definition locate (cs : list chunk) (tol : Q) (v : vec) : Z * (Z * Z * Z) :=
  let im := vfloor v in
  let i := find_site_in_tol cs (vsubz v im) tol in
  if i =? -1 then let im := vfloor (vaddq v tol) in (find_site_in_tol cs (vsubz v im) tol, im) else (i, im).
Record row := mkRow { g_site : Z; g_neigh : Z; g_radius : Q; g_dist : Q; g_type : Q; g_point : vec; g_vector : vec; g_coord : vec }.
(** Lines 491-561. *)
Definition sym_row (root : Q -> Q) (fracs : list vec) (m : mat) (tol : Q) (b : bond) (frac type : Q) (o : op) : option row :=
  let cs := map (chunk_of tol) fracs in
  let '(si, im) := locate cs tol (apply_op o (nth (b_site b) fracs (0, 0, 0)%Q)) in
  let '(ni, nim) := locate cs tol (vsubz (apply_op o (b_coord b)) im) in
  match np_get fracs si, np_get fracs ni with
  | Some s, Some n =>
      let n := vshift n nim in
      let p := vmap (fun x => x * frac)%Q (vsub n s) in
      let c := vmat p m in
      let r := root (norm2 c) in
      let point := let '(x, y, z) := p in let '(u, v, w) := s in (x + u, y + v, z + w)%Q in
      let vector := vmap (fun x => x / root (norm2 p))%Q p in
      Some (mkRow si ni (round12 r) (round12 r) (round12 type) (vround12 point) (vround12 vector) (vround12 n))
  | _, _ => None
  end.
(** All rows, pair after pair; [None] is an IndexError. *)
Definition generate_symmetric_bonds (root : Q -> Q) (fracs : list vec) (m : mat) (tol : Q) (bonds : list (bond * (Q * Q))) (ops : list op) : list (option row) :=
  flat_map (fun '(b, (frac, type)) => map (sym_row root fracs m tol b frac type) ops) bonds.
