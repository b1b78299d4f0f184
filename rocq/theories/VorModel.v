(** Dividing planes of all atoms, core/labelers/elf_labeler/elf_radii.py lines 73-138
    ([_get_neigh_info_from_pymatgen], [_get_plane_equations]) and 139-416 ([get_voronoi_radii]).

    The neighbours found by CrystalNN are given ([found]), as are pymatgen's list of neighbours within a radius ([nlist]), the
    corners found by scipy's HalfspaceIntersection ([corners]; [None] if it fails, when the code enters the debugger) and
    [np.unique] for rows of integers ([uniq], lines 273 and [unique_ok] in RadProps.v).  Coordinates are exact rationals. *)
From Coq Require Import QArith.
From Verif Require Import Base RootsModel UnionModel ChargeModel CoordModel NearModel RefineModel PlaneModel EnvModel RadModel BondModel.
Local Open Scope Z_scope.

Record nn := Nn { n_idx : nat; n_image : Z * Z * Z; n_dist : Q }.
Definition nn0 : nn := Nn 0 (0, 0, 0) 0.
(** Lines 79-95: the neighbours of one site sorted by distance, without those at no distance. *)
Definition neigh_info (argsort : list Q -> list nat) (l : list nn) : list nn :=
  filter (fun x => negb (Qeq_bool (n_dist x) 0)) (map (fun i => nth i l nn0) (argsort (map n_dist l))).

(** Lines 115-138, one plane. *)
Definition plane_equation (root : Q -> Q) (site neigh : vec) (frac : Q) : Q * Q * Q * Q :=
  let v := vsub neigh site in
  let point := vadd (vscale frac v) site in
  let u := vmap (fun x => x / root (norm2 v))%Q v in
  (u, (- vdot u point)%Q).
Definition plane_value (e : Q * Q * Q * Q) (p : vec) : Q := let '(u, d) := e in (vdot u p + d)%Q.

Definition lexcmp_step (x y : Q) (rest : comparison) : comparison := match (x ?= y)%Q with Eq => rest | c => c end.
Fixpoint lexcmp (a b : list Q) : comparison :=
  match a, b with x :: a, y :: b => lexcmp_step x y (lexcmp a b) | _, _ => Eq end.
(** A row of the final array, as numbers. *)
Definition row_key (r : row) : list Q :=
  let '(p1, p2, p3) := g_point r in let '(v1, v2, v3) := g_vector r in let '(c1, c2, c3) := g_coord r in
  [inject_Z (g_site r); inject_Z (g_neigh r); g_radius r; g_dist r; g_type r; p1; p2; p3; v1; v2; v3; c1; c2; c3].
(** Line 389: sorted rows, equal ones once. *)
Fixpoint insert_row (r : row) (l : list row) : list row :=
  match l with
  | [] => [r]
  | x :: t => match lexcmp (row_key r) (row_key x) with Lt => r :: l | Eq => l | Gt => x :: insert_row r t end
  end.
Definition unique_rows (l : list row) : list row := fold_right insert_row [] l.
Fixpoint all_rows (l : list (option row)) : outcome (list row) :=
  match l with [] => Done [] | None :: _ => Raised | Some r :: t => obind (all_rows t) (fun t => Done (r :: t)) end.

Notation key := (Z * Z * chunk * Z)%type.
Notation eqn := (Q * Q * Q * Q)%type.
Section Voronoi.
Variables (root : Q -> Q) (argsort : list Q -> list nat) (fracs : list vec) (equiv : list nat) (ops : list op) (matrix : mat).
Variables (found : nat -> list nn) (nlist : nat -> Q -> list nn).
Variables (order1 order2 : list nat) (uniq : list key -> list nat * list nat) (corners : list eqn -> vec -> option (list vec)).
(** For the radii: see RadModel.v. *)
Variables (interp : vec -> Q) (nearest : vec -> Z) (feature_coords : list vec) (covalent : list bool) (refinements : nat).

Definition site_coord (s : nat) : vec := nth s fracs (0, 0, 0)%Q.
Definition position (x : nn) : vec := vshift (site_coord (n_idx x)) (n_image x).
(** Lines 203-241, one site; [max] of nothing raises. *)
Definition expand (site : nat) (first : list nn) : outcome (list nn) :=
  match first with
  | [] => Raised
  | x :: t =>
      let eqns := map (fun y => plane_equation root (site_coord site) (position y) (3 # 2)) first in
      let dist := fold_left qmax (map n_dist t) (n_dist x) in
      Done (filter (fun y => forallb (fun e => Qle_bool (plane_value e (position y)) (- (1 # 1000000000000))) eqns &&
                             negb (Qeq_bool (n_dist y) 0) && negb (Qltb (n_dist y) (1 # 1000000000000)))
                   (nlist site (dist * (3 # 2) * 2)%Q))
  end.
(** Line 177. *)
Definition unique_atoms : list nat := map Z.to_nat (np_unique (map Z.of_nat equiv)).
Notation vbond := (nat * nn)%type.
(** Lines 189-255. *)
Fixpoint considered (sites : list nat) : outcome (list vbond) :=
  match sites with
  | [] => Done []
  | s :: t => obind (expand s (neigh_info argsort (found s))) (fun l =>
              obind (considered t) (fun r => Done (map (fun y => (s, y)) l ++ r)))
  end.
(** Lines 257-275. *)
Definition as_bond (b : vbond) : BondModel.bond := mkBond (fst b) (n_idx (snd b)) (position (snd b)) (n_dist (snd b)).
Definition canonical (bs : list vbond) : list rep := get_canonical_bonds (map as_bond bs) fracs (map Z.of_nat equiv) ops (1 # 50) order1 order2.
Definition rep_key (r : rep) : key := (r_lo r, r_hi r, r_disp r, r_len r).
Definition rad_bond (b : vbond) (r : rep) : RadModel.bond := Bond (fst b) (n_idx (snd b)) (position (snd b)) (n_dist (snd b)) (r_inv r =? 1).
Definition rad_bonds (bs : list vbond) : list RadModel.bond := map (fun '(b, r) => rad_bond b r) (combine bs (canonical bs)).
(** Lines 277-300. *)
Definition fractions (bs : list vbond) (indices inverse : list nat) : outcome (list Q) :=
  spread_fractions interp nearest feature_coords covalent refinements equiv (rad_bonds bs) indices inverse.
Definition bond_types (bs : list vbond) (indices inverse : list nat) : outcome (list bool) :=
  let rep j := nth j (rad_bonds bs) (Bond 0 0 vzero 0 false) in
  obind (get_all_atom_elf_radii interp nearest feature_coords covalent refinements equiv (map rep indices)) (fun res =>
  Done (map (fun c => snd (nth c res (0%Q, 0%Q, false))) inverse)).
(** Lines 302-306: where the site changes. *)
Fixpoint changes (sites : list nat) (i : nat) : list nat :=
  match sites with
  | a :: ((b :: _) as t) => if Nat.eqb a b then changes t (S i) else S i :: changes t (S i)
  | _ => []
  end.
Definition site_ranges (sites : list nat) : list nat := 0%nat :: changes sites 0 ++ [length sites].
Definition slice {A} (l : list A) (lower upper : nat) : list A := firstn (upper - lower) (skipn lower l).
(** Lines 336-361 for one site, whose planes are [eqns] and whose classes are [classes]. *)
Definition site_flags (site : nat) (eqns : list eqn) (classes : list nat) : outcome (list bool) :=
  obind (oget (corners eqns (site_coord site))) (fun vertices =>
  let cls := map Z.of_nat classes in
  let u := np_unique cls in
  let chosen := map (fun c => nth (Z.to_nat (index_of c cls)) eqns (0, 0, 0, 0)%Q) u in
  let important := planes_on_surface chosen vertices (1 # 1000000000000) in
  Done (map (fun c => nth (Z.to_nat (index_of c u)) important false) cls)).
(** Lines 308-361: the flags of the bonds, range by range. *)
Fixpoint flags (bs : list vbond) (fr : list Q) (inverse ranges sites : list nat) (k : nat) : outcome (list bool) :=
  match sites with
  | [] => Done []
  | s :: t =>
      obind (oget (nth_error ranges k)) (fun lower =>
      obind (oget (nth_error ranges (S k))) (fun upper =>
      let eqns := map (fun '(b, f) => plane_equation root (site_coord s) (position (snd b)) f) (combine (slice bs lower upper) (slice fr lower upper)) in
      obind (site_flags s eqns (slice inverse lower upper)) (fun fl =>
      obind (flags bs fr inverse ranges t (S k)) (fun r => Done (fl ++ r)))))
  end.
(** Lines 363-390. *)
Definition rows (kept : list (vbond * (Q * bool))) : outcome (list row) :=
  obind (all_rows (generate_symmetric_bonds root fracs matrix (1 # 50)
           (map (fun '(b, (f, t)) => (as_bond b, (f, if t : bool then 1%Q else 0%Q))) kept) ops)) (fun l => Done (unique_rows l)).
Definition selected {A} (l : list A) (fl : list bool) : list A := map fst (filter snd (combine l fl)).
Definition get_voronoi_radii : outcome (list row) :=
  obind (considered unique_atoms) (fun bs =>
  let '(indices, inverse) := uniq (map rep_key (canonical bs)) in
  obind (fractions bs indices inverse) (fun fr =>
  obind (bond_types bs indices inverse) (fun ty =>
  obind (flags bs fr inverse (site_ranges (map fst bs)) unique_atoms 0) (fun fl =>
  obind (rows (selected (combine bs (combine fr ty)) fl)) (fun out =>
  if existsb (fun r => g_site r =? -1) out then Raised else Done out))))).
End Voronoi.
