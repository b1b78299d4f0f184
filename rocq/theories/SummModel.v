(** Summaries as dictionaries and JSON: [to_dict] and [to_json] of Bader (bader.py lines 1561-1683), Badelf (badelf.py
    lines 1035-1130), SpinBadelf (badelf_spin.py lines 476-546), ElfLabeler (elf_labeler.py lines 1861-2015) and
    SpinElfLabeler (elf_labeler_spin.py lines 645-755).

    Simplifications: an object is the map [attr] of its attributes, [PyNone] for those it does not have; numbers inside
    arrays are those [tolist] returns; the keys of a dictionary written here are different from each other, so that
    assigning them appends them, and a loop that replaces entries is a pass over the dictionary.  [None] is an exception.
    [potcar] is [None] when the file does not exist and otherwise gives the oxidation states. *)
From Coq Require Import String QArith.
From Verif Require Import Base.
Local Open Scope string_scope.
Local Open Scope list_scope.

Inductive py :=
  | PyNone | PyBool (b : bool) | PyInt (z : Z) | PyFloat (q : Q) | PyStr (s : string)
  | PyList (l : list py) | PyDict (d : list (string * py))
  | PyArray (l : list py)                 (** a numpy array *)
  | PyObject (poscar json : string).      (** an object with [to(fmt="POSCAR")] and [to_json()] *)
Definition dict := list (string * py).
Fixpoint get (k : string) (d : dict) : option py :=
  match d with [] => None | (k', v) :: t => if String.eqb k k' then Some v else get k t end.

(** [json.dumps]: what it accepts, and the document written. *)
Fixpoint serializable (v : py) : bool :=
  match v with
  | PyList l => forallb serializable l
  | PyDict d => forallb (fun x => serializable (snd x)) d
  | PyArray _ | PyObject _ _ => false
  | _ => true
  end.
Definition dumps (v : py) : option py := if serializable v then Some v else None.

(** [v.tolist()], [v.to(fmt="POSCAR")], [v.to_json()]. *)
Definition tolist (v : py) : option py := match v with PyArray l => Some (PyList l) | _ => None end.
Definition to_poscar (v : py) : option py := match v with PyObject p _ => Some (PyStr p) | _ => None end.
Definition obj_json (v : py) : option py := match v with PyObject _ j => Some (PyStr j) | _ => None end.
Definition is_none (v : py) : bool := match v with PyNone => true | _ => false end.
Definition unless_none (f : py -> option py) (v : py) : option py := if is_none v then Some v else f v.

Fixpoint map_entries (f : string -> py -> option py) (d : dict) : option dict :=
  match d with
  | [] => Some []
  | (k, v) :: t => match f k v, map_entries f t with Some v', Some t' => Some ((k, v') :: t') | _, _ => None end
  end.
Definition mem (k : string) (l : list string) : bool := existsb (String.eqb k) l.
(** [for key in keys: d[key] = f(d[key])]. *)
Definition convert (f : py -> option py) (keys : list string) (d : dict) : option dict :=
  map_entries (fun k v => if mem k keys then f v else Some v) d.
(** [for key in keys: d[key] = getattr(self, key, None)]. *)
Definition collect (attr : string -> py) (keys : list string) : dict := map (fun k => (k, attr k)) keys.
Definition obnd {A B} (o : option A) (f : A -> option B) : option B := match o with Some a => f a | None => None end.
Definition states (potcar : option (list py)) : py := match potcar with Some l => PyArray l | None => PyNone end.

(** ** Bader *)
Definition bader_dict (attr : string -> py) (potcar : option (list py)) (use_json : bool) : option dict :=
  let results := [("method_kwargs", PyDict (collect attr ["method"; "vacuum_tol"; "basin_tol"])); ("oxidation_states", states potcar)] in
  let atoms := collect attr ["species"; "atom_charges"; "atom_volumes"; "atom_min_surface_distances"; "atom_avg_surface_distances"] in
  let basins := collect attr ["basin_atoms"; "basin_atom_dists"; "basin_charges"; "basin_volumes"; "basin_maxima_frac";
    "basin_maxima_charge_values"; "basin_maxima_ref_values"; "basin_maxima_vox"; "significant_basins";
    "basin_min_surface_distances"; "basin_avg_surface_distances"] in
  let results := results ++ collect attr ["structure"; "vacuum_charge"; "vacuum_volume"; "num_vacuum"; "total_electron_number"; "total_volume"] in
  if use_json then
    obnd (convert to_poscar ["structure"] results) (fun results =>
    obnd (convert (unless_none tolist) ["basin_maxima_frac"; "basin_maxima_charge_values"; "basin_maxima_ref_values"; "basin_maxima_vox";
      "basin_charges"; "basin_volumes"; "significant_basins"; "basin_min_surface_distances"; "basin_avg_surface_distances"; "basin_atoms";
      "basin_atom_dists"] basins) (fun basins =>
    obnd (convert (unless_none tolist) ["atom_charges"; "atom_volumes"; "atom_min_surface_distances"; "atom_avg_surface_distances"] atoms) (fun atoms =>
    Some (results ++ [("atom_results", PyDict atoms); ("basin_results", PyDict basins)]))))
  else Some (results ++ [("atom_results", PyDict atoms); ("basin_results", PyDict basins)]).
Definition bader_json attr potcar : option py := obnd (bader_dict attr potcar true) (fun d => dumps (PyDict d)).

(** ** Badelf *)
(** badelf.py lines 135-143, for the argument [elf_labeler]. *)
Definition labeler_kwargs (elf_labeler : py) : py := match elf_labeler with PyDict d => PyDict d | _ => PyNone end.
Definition total_spin (v : py) : bool := match v with PyStr s => String.eqb s "total" | _ => false end.
Definition badelf_dict (attr : string -> py) (potcar : option (list py)) (use_json : bool) : option dict :=
  let results := [("method_kwargs", PyDict (collect attr ["method"; "shared_feature_splitting_method"; "elf_labeler_kwargs"]));
                  ("oxidation_states", if total_spin (attr "spin_system") then states potcar else PyNone)] ++
    collect attr ["species"; "structure"; "labeled_structure"; "electride_structure"; "nelectrides"; "all_electride_dims";
      "all_electride_dim_cutoffs"; "electride_dimensionality"; "charges"; "volumes"; "elf_maxima"; "min_surface_distances";
      "avg_surface_distances"; "electride_formula"; "electrides_per_formula"; "electrides_per_reduced_formula"; "total_electron_number";
      "total_volume"; "spin_system"; "vacuum_charge"; "vacuum_volume"] in
  if use_json then
    obnd (convert to_poscar ["structure"; "labeled_structure"; "electride_structure"] results) (fun results =>
    convert (unless_none tolist) ["charges"; "volumes"; "elf_maxima"; "oxidation_states"; "min_surface_distances"; "avg_surface_distances"] results)
  else Some results.
Definition badelf_json attr potcar : option py := obnd (badelf_dict attr potcar true) (fun d => dumps (PyDict d)).

(** ** SpinBadelf; [up] has the attributes of [badelf_up] and [default_potcar] is the file POTCAR of line 497. *)
Definition spin_badelf_dict (attr up : string -> py) (default_potcar potcar : option (list py)) (use_json : bool) : option dict :=
  obnd (badelf_dict up default_potcar true) (fun u =>
  obnd (get "method_kwargs" u) (fun kw =>
  let results := [("method_kwargs", kw); ("oxidation_states", states potcar)] ++
    collect attr ["spin_system"; "species"; "structure"; "labeled_structure"; "electride_structure"; "nelectrides"; "electride_dimensionality";
      "charges"; "volumes"; "electride_formula"; "electrides_per_formula"; "electrides_per_reduced_formula"; "total_electron_number";
      "total_volume"; "vacuum_charge"; "vacuum_volume"] in
  if use_json then
    obnd (convert to_poscar ["structure"; "labeled_structure"; "electride_structure"] results) (fun results =>
    convert (unless_none tolist) ["charges"; "volumes"; "oxidation_states"] results)
  else Some results)).
Definition spin_badelf_json attr up default_potcar potcar : option py :=
  obnd (spin_badelf_dict attr up default_potcar potcar true) (fun d => dumps (PyDict d)).

(** ** ElfLabeler.  [shares m e]: charges and volumes of [get_charges_and_volumes(splitting_method=m, use_electrides=e)];
    [potcar e] the oxidation states for [use_electrides=e]; [round10] rounds to ten decimals. *)
Section Labeler.
Variable shares : string -> bool -> list py * list py.
Variable round10 : list py -> list py.
Definition default_method : string := "weighted_dist".
Definition rounded (p : list py * list py) : list py * list py := (round10 (fst p), round10 (snd p)).
Definition charge_entries (ox : option (bool -> list py)) (plain electrides : list py * list py) : dict :=
  [("oxidation_states", match ox with Some f => PyList (f false) | None => PyNone end);
   ("oxidation_states_e", match ox with Some f => PyList (f true) | None => PyNone end);
   ("charges", PyList (fst plain)); ("charges_e", PyList (fst electrides)); ("volumes", PyList (snd plain)); ("volumes_e", PyList (snd electrides))].
Definition if_json (use_json : bool) (f : py -> option py) (attr : string -> py) (keys : list string) : option dict :=
  let d := collect attr keys in if use_json then convert (unless_none f) keys d else Some d.
(** [[i.tolist() for i in v]]. *)
Fixpoint tolists (l : list py) : option (list py) :=
  match l with [] => Some [] | v :: t => match tolist v, tolists t with Some v', Some t' => Some (v' :: t') | _, _ => None end end.
Definition each_tolist (v : py) : option py := match v with PyList l => option_map PyList (tolists l) | _ => None end.
Definition reported_settings : list string :=
  ["crystalnn_kwargs"; "ignore_low_pseudopotentials"; "shared_shell_ratio"; "covalent_molecule_ratio"; "min_covalent_charge";
   "min_covalent_angle"; "min_electride_elf_value"; "min_electride_depth"; "min_electride_charge"; "min_electride_volume";
   "min_electride_dist_beyond_atom"].
Definition labeler_dict (attr : string -> py) (potcar : option (bool -> list py)) (use_json : bool) (splitting_method : string) : option dict :=
  let head := [("method_kwargs", PyDict (("splitting_method", PyStr splitting_method) :: collect attr reported_settings)); ("spin_system", attr "spin_system")] in
  let charges :=
    match (if total_spin (attr "spin_system") then potcar else None) with
    | Some f => charge_entries (Some f) (rounded (shares default_method false)) (rounded (shares default_method true))
    | None => charge_entries None (shares default_method false) (shares default_method true)
    end in
  obnd (if_json use_json obj_json attr ["structure"; "labeled_structure"; "electride_structure"; "bifurcation_graph"]) (fun objects =>
  obnd (if_json use_json tolist attr ["atom_elf_radii"; "atom_elf_radii_types"; "atom_elf_radii_e"; "atom_elf_radii_types_e"; "atom_max_values_e";
    "feature_max_values"; "feature_min_values"; "feature_charges"; "feature_volumes"; "feature_coord_nums"; "feature_coord_nums_e";
    "feature_min_surface_dists"; "feature_avg_surface_dists"]) (fun arrays =>
  obnd (if_json use_json each_tolist attr ["feature_coord_dists"; "feature_coord_atoms_dists_e"]) (fun lists =>
  Some (head ++ charges ++ objects ++ arrays ++ lists ++
    collect attr ["nelectrides"; "electride_formula"; "electrides_per_formula"; "electrides_per_reduced_formula"; "feature_types";
      "feature_coord_atoms"; "feature_coord_atoms_e"; "atom_feature_indices_e"; "total_electron_number"; "total_volume"; "vacuum_charge"; "vacuum_volume"])))).
Definition labeler_json attr potcar splitting_method : option py := obnd (labeler_dict attr potcar true splitting_method) (fun d => dumps (PyDict d)).
(** ** SpinElfLabeler: [shares] are the sums over the spins (C48), which are not rounded. *)
Definition spin_labeler_dict (attr : string -> py) (potcar : option (bool -> list py)) (use_json : bool) (splitting_method : string) : option dict :=
  let head := [("method_kwargs", PyDict [("splitting_method", PyStr splitting_method)])] ++
    charge_entries potcar (shares default_method false) (shares default_method true) in
  obnd (if_json use_json obj_json attr ["structure"; "labeled_structure"; "electride_structure"]) (fun objects =>
  obnd (if_json use_json tolist attr ["atom_elf_radii"; "atom_elf_radii_types"; "atom_elf_radii_e"; "atom_elf_radii_types_e"]) (fun arrays =>
  Some (head ++ objects ++ arrays ++
    collect attr ["spin_system"; "nelectrides"; "feature_types"; "electride_formula"; "electrides_per_formula"; "electrides_per_reduced_formula";
      "total_electron_number"; "total_volume"; "vacuum_charge"; "vacuum_volume"]))).
Definition spin_labeler_json attr potcar splitting_method : option py := obnd (spin_labeler_dict attr potcar true splitting_method) (fun d => dumps (PyDict d)).
End Labeler.
