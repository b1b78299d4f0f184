(** Radii along bonds, core/labelers/elf_labeler/elf_radii_numba.py lines 16-245
    ([get_elf_radius_frac]), 248-302 ([get_elf_radius]), 372-439 ([get_all_atom_elf_radii]) and the
    spreading of fractions over equivalent bonds, elf_radii.py lines 269-300.

    Numbers are exact rationals.  The two interpolations are arbitrary functions of the position:
    [interp] is [interp_spline(..., data)], [nearest] is [int(interp_nearest(..., feature_labels))].
    The parallel loop over points (line 77) writes one element per iteration. *)
From Coq Require Import QArith.
From Verif Require Import Base RootsModel UnionModel ChargeModel CoordModel NearModel WeightModel RefineModel.
Local Open Scope Z_scope.

Definition vscale (t : Q) (v : vec) : vec := vmap (fun x => (t * x)%Q) v.
Definition vzero : vec := (0, 0, 0)%Q.
Definition vmaxabs (v : vec) : Q := let '(x, y, z) := v in qmax (qmax (qabs x) (qabs y)) (qabs z).

(** Lines 63-68. *)
Definition num_points (bond_dist line_res : Q) : Z :=
  let r := py_round (bond_dist * line_res) in
  if r mod 2 =? 0 then r + 1 else r.

(** Lines 112-118: the loop stops at the first foreign label; the answer is (covalent, other_atoms). *)
Fixpoint scan_labels (cov : Z -> bool) (site neigh : Z) (l : list Z) (acc : bool) : bool * bool :=
  match l with
  | [] => (acc, false)
  | x :: t => if cov x then scan_labels cov site neigh t true
              else if negb (x =? site) && negb (x =? neigh) then (acc, true)
              else scan_labels cov site neigh t acc
  end.

(** Lines 126-146 and 170-186: of the indices [l] that pass [ok], the one nearest to [mid]. *)
Fixpoint nearest_index (ok : nat -> bool) (mid : Q) (l : list nat) (best : option nat) (dist : Q) : option nat :=
  match l with
  | [] => best
  | i :: t =>
      if ok i
      then let d := qabs (inject_Z (Z.of_nat i) - mid) in
           if Qltb d dist then nearest_index ok mid t (Some i) d else nearest_index ok mid t best dist
      else nearest_index ok mid t best dist
  end.

(** Lines 160-169. *)
Fixpoint first_foreign (atom : Z) (i : nat) (l : list Z) : Z :=
  match l with
  | [] => -1
  | x :: t => if x =? -1 then first_foreign atom (S i) t
              else if negb (x =? atom) then Z.of_nat i
              else first_foreign atom (S i) t
  end.

Section Bond.
Variable interp : vec -> Q.
Variable nearest : vec -> Z.
Variable coords : list vec.          (** [all_frac_coords] *)
Variable covalent_labels : list bool.
Variable refinements : nat.          (** [n] of line 206; 22 for the default resolution *)

(** Lines 78-92. *)
Definition label_at (p : vec) : Z :=
  let label := nearest p in
  let site := match np_get coords label with Some c => c | None => vzero end in
  if Qltb (1 # 2) (vmaxabs (vsub site p)) then label + Z.of_nat (length coords) else label.

Definition is_covalent (label : Z) : bool := nth (Z.to_nat (label mod Z.of_nat (length coords))) covalent_labels false.

(** Lines 207-241. *)
Fixpoint refine (use_max : bool) (step : vec) (n : nat) (mult : Q) (c : vec) (v r : Q) : Q :=
  match n with
  | O => r
  | S n =>
      let mult := (mult / 2)%Q in
      let s := vscale mult step in
      let u := vadd c s in
      let d := vsub c s in
      let uv := interp u in
      let dv := interp d in
      if use_max
      then if Qltb v uv && Qle_bool dv uv then refine use_max step n mult u uv (r + mult)%Q
           else if Qltb v dv then refine use_max step n mult d dv (r - mult)%Q
           else refine use_max step n mult c v r
      else if Qltb uv v && Qle_bool uv dv then refine use_max step n mult u uv (r + mult)%Q
           else if Qltb dv v then refine use_max step n mult d dv (r - mult)%Q
           else refine use_max step n mult c v r
  end.

Definition get_elf_radius_frac (atom : Z) (a b : vec) (bond_dist line_res : Q) : Q * bool * bool :=
  let n := Z.to_nat (num_points bond_dist line_res) in
  let last := inject_Z (Z.of_nat n - 1) in
  let step := vmap (fun x => (x / last)%Q) (vsub b a) in
  let point i := vadd a (vscale (inject_Z (Z.of_nat i)) step) in
  let values := map (fun i => interp (point i)) (seq 0 n) in
  let labels := map (fun i => label_at (point i)) (seq 0 n) in
  let uniq := np_unique labels in
  if Nat.eqb (length uniq) 1 then (1 # 2, true, false)
  else
    let '(covalent, other) := scan_labels is_covalent (nth 0 labels 0) (nth (n - 1) labels 0) uniq false in
    if other then (1 # 2, true, false)
    else
      let value i := nth i values 0%Q in
      let inside i := negb (Nat.eqb i 0) && negb (Nat.eqb i (n - 1)) in
      let maximum := if covalent
        then nearest_index (fun i => is_covalent (nth i labels 0) && inside i &&
                             (Qle_bool (value (i - 1)%nat) (value i) && Qltb (value (i + 1)%nat) (value i)))
               (last / 2)%Q (seq 0 n) None 1000000%Q
        else None in
      let '(covalent, found) := match maximum with
        | Some k => (true, Some k)
        | None => (false, nearest_index (fun i => inside i &&
                             (Qle_bool (value i) (value (i - 1)%nat) && Qltb (value i) (value (i + 1)%nat)))
               (inject_Z (first_foreign atom 0 labels)) (seq 0 n) None 1000000%Q)
        end in
      match found with
      | None | Some O => (1 # 2, true, true)
      | Some k =>
          let c := vadd a (vscale (inject_Z (Z.of_nat k)) step) in
          let r := refine covalent step refinements 1%Q c (interp c) (inject_Z (Z.of_nat k)) in
          ((r / last)%Q, covalent, false)
      end.

(** Lines 290-302: radius, fraction, covalent, failed. *)
Definition get_elf_radius atom a b bond_dist line_res : Q * Q * bool * bool :=
  let '(f, c, e) := get_elf_radius_frac atom a b bond_dist line_res in
  ((bond_dist * f)%Q, f, c, e).

Record bond := Bond { b_site : nat; b_neigh : nat; b_coords : vec; b_dist : Q; b_reversed : bool }.

(** Lines 393-426: one bond, with the default [line_res] of 20 points per Angstrom. *)
Definition bond_radius (equivalent : list nat) (x : bond) : Q * Q * bool :=
  if Nat.eqb (nth (b_site x) equivalent 0%nat) (nth (b_neigh x) equivalent 0%nat)
  then ((b_dist x * (1 # 2))%Q, 1 # 2, true)
  else
    let '(r, f, c, _) := get_elf_radius (Z.of_nat (b_site x)) (nth (b_site x) coords vzero) (b_coords x) (b_dist x) 20 in
    if b_reversed x then ((b_dist x - r)%Q, (1 - f)%Q, c) else (r, f, c).

(** Lines 386-439: the assertion is checked at the end; [min] of no bonds raises. *)
Definition get_all_atom_elf_radii (equivalent : list nat) (l : list bond) : outcome (list (Q * Q * bool)) :=
  let res := map (bond_radius equivalent) l in
  match res with
  | [] => Raised
  | _ => if forallb (fun x : Q * Q * bool => let '(_, f, _) := x in Qle_bool 0 f && Qle_bool f 1) res then Done res else Raised
  end.

(** elf_radii.py lines 273-300.  [indices] and [inverse] come from [np.unique]: the first bond of
    every class and the class of every bond. *)
Definition spread_fractions (equivalent : list nat) (bonds : list bond) (indices inverse : list nat) : outcome (list Q) :=
  let rep j := nth j bonds (Bond 0 0 vzero 0 false) in
  obind (get_all_atom_elf_radii equivalent (map rep indices)) (fun res =>
    let fracs := map (fun x : Q * Q * bool => let '(_, f, _) := x in f) res in
    Done (map (fun '(x, j) => let f := nth j fracs 0%Q in if b_reversed x then (1 - f)%Q else f) (combine bonds inverse))).
End Bond.
