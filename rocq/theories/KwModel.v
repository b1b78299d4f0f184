(** Where keyword arguments go: the constructors of Bader, ElfLabeler, SpinElfLabeler, Badelf and SpinBadelf and the
    reading of VASP files by Badelf and ElfLabeler.

    Simplifications: an object is the record of the settings it stores; grids are opaque values; the comparison of the
    structures of the two grids (badelf.py line 118) and the check for spin data are left out. *)
From Coq Require Import String QArith.
From Verif Require Import Base.
Local Open Scope string_scope.
Local Open Scope list_scope.

Inductive value := VNone | VBool (b : bool) | VNum (q : Q) | VStr (s : string) | VGrid (n : nat) | VDict (d : list (string * value)) | VObject (n : nat).
Definition kwargs := list (string * value).
Definition lookup (k : string) (l : kwargs) : option value := option_map snd (find (fun x => String.eqb k (fst x)) l).
Definition given (k : string) (l : kwargs) : bool := existsb (fun x => String.eqb k (fst x)) l.
Fixpoint repeated (l : list string) : bool :=
  match l with [] => false | k :: t => existsb (String.eqb k) t || repeated t end.

(** A call [f(a=.., b=.., **kwargs)] of a function with parameters [params] (each with its default) that also accepts
    [**kwargs]: [None] is a TypeError, from a keyword given twice or a parameter left out. *)
Definition param := (string * option value)%type.
Fixpoint fill (params : list param) (args : kwargs) : option kwargs :=
  match params with
  | [] => Some []
  | (k, d) :: t =>
      match (match lookup k args with Some v => Some v | None => d end), fill t args with
      | Some v, Some r => Some ((k, v) :: r)
      | _, _ => None
      end
  end.
Definition rest_of (params : list param) (args : kwargs) : kwargs :=
  filter (fun x => negb (existsb (fun p => String.eqb (fst x) (fst p)) params)) args.
Definition call {A} (params : list param) (args : kwargs) (body : kwargs -> kwargs -> option A) : option A :=
  if repeated (map fst args) then None
  else match fill params args with Some env => body env (rest_of params args) | None => None end.
Definition get (k : string) (env : kwargs) : value := match lookup k env with Some v => v | None => VNone end.

(** [Bader.__init__], bader.py lines 55-97. *)
Definition bader_params : list param :=
  [("charge_grid", None); ("reference_grid", Some VNone); ("method", Some (VStr "weight")); ("vacuum_tol", Some (VNum (1 # 1000)));
   ("basin_tol", Some (VNum (1 # 1000))); ("use_reference_vacuum", Some (VBool true))].
Definition bader_methods : list string := ["weight"; "ongrid"; "neargrid"; "neargrid-weight"].
Record bader := Bader { b_charge : value; b_reference : value; b_method : value; b_vacuum : value; b_basin : value; b_ref_vacuum : value }.
Definition bader_init (args : kwargs) : option bader :=
  call bader_params args (fun env _ =>
  match get "method" env with
  | VStr m => if existsb (String.eqb m) bader_methods
              then Some (Bader (get "charge_grid" env) (match get "reference_grid" env with VNone => get "charge_grid" env | r => r end) (VStr m)
                     (match get "vacuum_tol" env with VBool true => VNum (1 # 1000) | v => v end) (get "basin_tol" env) (get "use_reference_vacuum" env))
              else None
  | _ => None
  end).

(** [ElfLabeler.__init__], elf_labeler.py lines 162-257. *)
Definition cnn_default : value := VDict [("distance_cutoffs", VNone); ("x_diff_weight", VNum 0); ("porous_adjustment", VBool false)].
(** Those stored on the object. *)
Definition labeler_settings : list (string * value) :=
  [("ignore_low_pseudopotentials", VBool false); ("shared_shell_ratio", VNum (75 # 100)); ("covalent_molecule_ratio", VNum (2 # 10));
   ("combine_shells", VBool true); ("min_covalent_charge", VNum (6 # 10)); ("min_covalent_angle", VNum 135);
   ("min_electride_elf_value", VNum (5 # 10)); ("min_electride_depth", VNum (2 # 10)); ("min_electride_charge", VNum (5 # 10));
   ("min_electride_volume", VNum 10); ("min_electride_dist_beyond_atom", VNum (3 # 10)); ("crystalnn_kwargs", cnn_default);
   ("shallow_reducible_cutoff", VNum (5 # 100)); ("shallow_irreducible_cutoff", VNum (1 # 10))].
Definition labeler_params : list param :=
  [("charge_grid", None); ("reference_grid", None)] ++ map (fun x => (fst x, Some (snd x))) labeler_settings ++
  [("max_metal_depth", Some (VNum (1 # 10))); ("vacuum_tol", Some (VNum (1 # 1000)))].
Record labeler := Labeler { l_charge : value; l_reference : value; l_settings : kwargs; l_bader : bader }.
Definition labeler_init (args : kwargs) : option labeler :=
  call labeler_params args (fun env rest =>
  match bader_init ([("charge_grid", get "charge_grid" env); ("reference_grid", get "reference_grid" env); ("vacuum_tol", get "vacuum_tol" env);
                     ("use_reference_vacuum", VBool false)] ++ rest) with
  | Some b => Some (Labeler (get "charge_grid" env) (get "reference_grid" env)
                (map (fun x => (fst x, get (fst x) env)) labeler_settings) b)
  | None => None
  end).

Section Spin.
(** [Grid.split_to_spin] and the comparison of the two reference grids, elf_labeler_spin.py lines 58-76. *)
Variable up down : value -> value.
Variable equal_spin : value -> bool.

(** [SpinElfLabeler.__init__], lines 44-94. *)
Definition spin_labeler_params : list param := [("charge_grid", None); ("reference_grid", None)].
Definition spin_labeler_init (args : kwargs) : option (labeler * labeler) :=
  call spin_labeler_params args (fun env rest =>
  let c := get "charge_grid" env in let r := get "reference_grid" env in
  match labeler_init ([("reference_grid", up r); ("charge_grid", up c)] ++ rest) with
  | None => None
  | Some u => if equal_spin r then Some (u, u)
              else match labeler_init ([("reference_grid", down r); ("charge_grid", down c)] ++ rest) with
                   | Some d => Some (u, d) | None => None end
  end).

(** [Badelf.__init__], badelf.py lines 105-148.  [inr] is a labeler made by the caller. *)
Definition badelf_params : list param :=
  [("reference_grid", None); ("charge_grid", None); ("method", Some (VStr "zero-flux"));
   ("shared_feature_splitting_method", Some (VStr "weighted_dist")); ("elf_labeler", Some (VDict []))].
Definition badelf_methods : list string := ["badelf"; "voronelf"; "zero-flux"].
Record badelf := Badelf { f_reference : value; f_charge : value; f_method : value; f_splitting : value; f_labeler : labeler + value }.
Definition badelf_init (args : kwargs) : option badelf :=
  call badelf_params args (fun env _ =>
  let r := get "reference_grid" env in let c := get "charge_grid" env in
  match get "method" env with
  | VStr m =>
      if existsb (String.eqb m) badelf_methods then
        let make := Badelf r c (VStr m) (get "shared_feature_splitting_method" env) in
        match get "elf_labeler" env with
        | VDict d => match labeler_init ([("charge_grid", c); ("reference_grid", r)] ++ d) with Some l => Some (make (inl l)) | None => None end
        | v => Some (make (inr v))
        end
      else None
  | _ => None
  end).

(** [SpinBadelf.__init__], badelf_spin.py lines 29-106, for settings of the labeler given as a dictionary: the settings
    of the two BadELF runs and the two labelers.  Objects 0 and 1 stand for the labelers of the two spins. *)
Definition spin_badelf_params : list param := [("reference_grid", None); ("charge_grid", None); ("elf_labeler", Some (VDict []))].
Definition spin_badelf_init (args : kwargs) : option ((labeler * labeler) * (badelf * badelf)) :=
  call spin_badelf_params args (fun env rest =>
  let c := get "charge_grid" env in let r := get "reference_grid" env in
  match get "elf_labeler" env with
  | VDict d =>
      match spin_labeler_init ([("charge_grid", c); ("reference_grid", r)] ++ d) with
      | None => None
      | Some ls =>
          match badelf_init ([("reference_grid", up r); ("charge_grid", up c); ("elf_labeler", VObject 0)] ++ rest) with
          | None => None
          | Some u => if equal_spin r then Some (ls, (u, u))
                      else match badelf_init ([("reference_grid", down r); ("charge_grid", down c); ("elf_labeler", VObject 1)] ++ rest) with
                           | Some v => Some (ls, (u, v)) | None => None end
          end
      end
  | _ => None
  end).
End Spin.
