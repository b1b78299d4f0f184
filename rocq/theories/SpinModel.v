(** Spin-resolved results: core/badelf/badelf_spin.py and
    core/labelers/elf_labeler/elf_labeler_spin.py.

    A site is its species and its coordinates; the lattice is shared.  [near] is the comparison of
    coordinates in the equality of pymatgen sites, an arbitrary relation.  Site properties are equal. *)
From Coq Require Import Ascii String QArith Qround Qabs.
From Verif Require Import Base NearModel ChargeModel RootsModel UnionModel TextModel VaspModel.
Local Open Scope Z_scope.

Definition site : Type := text * vec.

Section Spin.
Variable near : vec -> vec -> bool.

(** Equality of sites, [site in structure] and [structure.index(site)]. *)
Definition site_eqb (a b : site) : bool := text_eqb (fst a) (fst b) && near (snd a) (snd b).
Definition contains (s : list site) (x : site) : bool := existsb (fun v => site_eqb v x) s.
Fixpoint index (s : list site) (x : site) : option nat :=
  match s with
  | [] => None
  | v :: r => if site_eqb v x then Some O else match index r x with Some i => Some (S i) | None => None end
  end.

(** Lines 279-286 of badelf_spin.py and 433-440 of elf_labeler_spin.py: one site of the spin-down
    structure.  Writing past the end of a list raises an exception. *)
Definition merge_site (up : list site) (d : site * (Q * Q)) (st : list Q * list Q) : outcome (list Q * list Q) :=
  let '(x, (c, v)) := d in
  let '(charges, volumes) := st in
  if contains up x then
    match index up x with
    | None => Raised
    | Some i => if (i <? List.length charges)%nat && (i <? List.length volumes)%nat
                then Done (add_at charges i c, add_at volumes i v) else Raised
    end
  else Done (charges ++ [c], volumes ++ [v]).
Fixpoint merge_sites (up : list site) (ds : list (site * (Q * Q))) (st : list Q * list Q) : outcome (list Q * list Q) :=
  match ds with
  | [] => Done st
  | d :: r => obind (merge_site up d st) (merge_sites up r)
  end.
(** [SpinBadelf._get_charges_and_volumes], lines 260-288, and
    [SpinElfLabeler.get_charges_and_volumes], lines 385-441. *)
Definition merge_results (up down : list site) (c_up v_up c_down v_down : list Q) : outcome (list Q * list Q) :=
  obind (merge_sites up (combine down (combine c_down v_down)) (c_up, v_up)) (fun '(c, v) => Done (c, map (fun x => x / 2)%Q v)).

(** [charges] and [volumes], lines 291-319: rounded to ten digits. *)
Definition round10 (x : Q) : Q := (inject_Z (py_round (x * inject_Z (10 ^ 10))) / inject_Z (10 ^ 10))%Q.

(** Species of features found in one spin system only. *)
Definition mark (suffix : string) (x : site) : site := (fst x ++ lit suffix, snd x).
(** [labeled_structure], badelf_spin.py lines 142-185 and elf_labeler_spin.py lines 230-273, and
    [SpinElfLabeler.electride_structure], lines 276-320. *)
Definition merge_structures (atoms up down : list site) : list site :=
  let n := List.length atoms in
  atoms ++ map (fun x => if contains down x then x else mark "xu" x) (skipn n up)
        ++ map (mark "xd") (filter (fun x => negb (contains up x)) (skipn n down)).

(** [FeatureType.bare_species], enum_and_styling.py lines 157-162. *)
Definition bare_species : list text := [lit "E"; lit "E"].
Definition mem (s : text) (l : list text) : bool := existsb (text_eqb s) l.
(** [Badelf.electride_structure], badelf.py lines 263-286. *)
Definition electrides (atoms labeled : list site) : list site :=
  atoms ++ map (fun x => (lit "E", snd x)) (filter (fun x => mem (fst x) bare_species) labeled).
(** [SpinBadelf.electride_structure], lines 188-217. *)
Definition all_bare_species : list text := flat_map (fun s => [s; s ++ lit "xu"; s ++ lit "xd"]) bare_species.
Definition spin_electrides (atoms labeled : list site) : list site :=
  atoms ++ filter (fun x => mem (fst x) all_bare_species) labeled.

(** [electrides_per_formula], lines 363-377, from the reported charges. *)
Definition electrides_per_formula (n_atoms : nat) (species : list site) (charges : list Q) : Q :=
  qsum (map (fun i => nth i charges 0%Q) (seq n_atoms (List.length species - n_atoms))).

(** The choice of systems, elf_labeler_spin.py lines 58-93 and badelf_spin.py lines 83-106: [analyse]
    is one BadELF run, from the reference and the charge grid of one spin to its structure, charges
    and volumes; equal reference grids are analysed once. *)
Definition allclose (tol : Q) (a b : list Q) : bool :=
  forallb (fun '(x, y) => Qle_bool (Qabs (x - y)) tol) (combine a b).
Definition spin_results (analyse : list Q -> list Q -> list site * (list Q * list Q))
    (ref_up ref_down charge_up charge_down : list Q) : outcome (list Q * list Q) :=
  let up := analyse ref_up charge_up in
  let down := if allclose (1 # 10000) ref_up ref_down then up else analyse ref_down charge_down in
  merge_results (fst up) (fst down) (fst (snd up)) (snd (snd up)) (fst (snd down)) (snd (snd down)).
(** [total_electron_number], badelf_spin.py lines 441-458, without the rounding. *)
Definition spin_total (analyse : list Q -> list Q -> list site * (list Q * list Q))
    (ref_up ref_down charge_up charge_down : list Q) : Q :=
  let up := analyse ref_up charge_up in
  let down := if allclose (1 # 10000) ref_up ref_down then up else analyse ref_down charge_down in
  (qsum (fst (snd up)) + qsum (fst (snd down)))%Q.
End Spin.
