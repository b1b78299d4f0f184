(** The tabs of the window, src/baderkit/plotting/gui/tabs/basin_tab.py, atom_tab.py, bader_tab.py and export_tab.py.

    Qt is modelled by its signals: [setChecked] and [setValue] emit [toggled] and [valueChanged] only if the state
    changes, [set_color] emits [colorChanged] always (widgets/color_picker.py, lines 37-46), [valueCommitted] is emitted
    when the user is done (widgets/float_select.py, lines 26-32); what is connected to a signal runs in the order in
    which it was connected.  [set_property] (main.py, lines 137-144) sets an attribute of the plotter.  Layout, rows and
    texts are left out. *)
From Coq Require Import QArith Ascii String.
From Verif Require Import Base GridModel ChargeModel NearModel RefineModel CoordModel TextModel VaspModel StructModel ViewModel CliModel.
Local Open Scope Z_scope.

(** ** Boxes to tick: atoms and their basins (basin_tab.py, lines 56-116), species and their atoms
    (atom_tab.py, lines 104-110, 155-161 and 189-194)

    [owner] gives the parent of each child; [shown] is the list given to the plotter. *)
Record boxes := { parents : list bool; children : list bool; shown : list Z }.
(** Lines 112-116: the numbers of the ticked boxes. *)
Definition checked (bs : list bool) : list Z :=
  map fst (filter snd (combine (map Z.of_nat (seq 0 (List.length bs))) bs)).
(** [setChecked] of a child, connected to [set_plotter_basins]. *)
Definition set_checked (v : bool) (i : nat) (s : boxes) : boxes :=
  match nth_error (children s) i with
  | Some old => if Bool.eqb old v then s else
      let c := upd (children s) i v in {| parents := parents s; children := c; shown := checked c |}
  | None => s
  end.
(** The children connected to a parent, in the order of the loop. *)
Definition owned (owner : list nat) (p : nat) : list nat :=
  map fst (filter (fun '(_, o) => Nat.eqb o p) (combine (seq 0 (List.length owner)) owner)).
Inductive click := Parent (p : nat) | Child (i : nat).
Definition clicked (owner : list nat) (s : boxes) (c : click) : boxes :=
  match c with
  | Child i => match nth_error (children s) i with Some v => set_checked (negb v) i s | None => s end
  | Parent p => match nth_error (parents s) p with
      | Some v => fold_left (fun s i => set_checked (negb v) i s) (owned owner p)
          {| parents := upd (parents s) p (negb v); children := children s; shown := shown s |}
      | None => s
      end
  end.
(** basin_tab.py, lines 55-105; [shown] is what the new plotter starts with (plotter.py, lines 1411-1416).  [None]: a
    KeyError. *)
Definition basin_boxes (atoms : nat) (basin_atoms : list nat) : option boxes :=
  if forallb (fun a => Nat.ltb a atoms) basin_atoms
  then Some {| parents := map (fun i => Nat.eqb i 0) (seq 0 atoms); children := map (fun a => Nat.eqb a 0) basin_atoms;
               shown := initial_basins (map Z.of_nat basin_atoms) |}
  else None.
(** atom_tab.py: everything is ticked; the plotter starts with all atoms. *)
Definition atom_boxes (species : nat) (symbols : list nat) : boxes :=
  {| parents := repeat true species; children := repeat true (List.length symbols);
     shown := map Z.of_nat (seq 0 (List.length symbols)) |}.

(** ** Radii and colours, atom_tab.py, lines 87-102, 133-153 and 175-187

    A radius is a number of hundredths; [radii] is what the plotter was given last. *)
Definition fit (v : Z) : Z := Z.max 1 (Z.min 1000 v).
Record spins := { sp_species : list Z; sp_atoms : list Z; radii : option (list Z) }.
Inductive spin := SpeciesValue (s : nat) (v : Z) | AtomValue (a : nat) (v : Z) | Commit.
Definition spun (owner : list nat) (st : spins) (e : spin) : spins :=
  match e with
  | AtomValue a v => {| sp_species := sp_species st; sp_atoms := upd (sp_atoms st) a (fit v); radii := radii st |}
  | SpeciesValue s v =>
      match nth_error (sp_species st) s with
      | Some old => if fit v =? old then st else
          {| sp_species := upd (sp_species st) s (fit v);
             sp_atoms := fold_left (fun l a => upd l a (fit (fit v))) (owned owner s) (sp_atoms st); radii := radii st |}
      | None => st
      end
  | Commit => {| sp_species := sp_species st; sp_atoms := sp_atoms st; radii := Some (sp_atoms st) |}
  end.
Record paints {C} := { pt_species : list C; pt_atoms : list C; colors : option (list C) }.
Arguments paints : clear implicits.
Inductive paint {C} := SpeciesColor (s : nat) (c : C) | AtomColor (a : nat) (c : C).
Arguments paint : clear implicits.
Definition paint_atom {C} (c : C) (st : paints C) (a : nat) : paints C :=
  let l := upd (pt_atoms st) a c in {| pt_species := pt_species st; pt_atoms := l; colors := Some l |}.
Definition painted {C} (owner : list nat) (st : paints C) (e : paint C) : paints C :=
  match e with
  | AtomColor a c => paint_atom c st a
  | SpeciesColor s c => fold_left (paint_atom c) (owned owner s)
      {| pt_species := upd (pt_species st) s c; pt_atoms := pt_atoms st; colors := colors st |}
  end.

(** ** Running Bader, bader_tab.py, lines 81-140 and 166-197

    [exists_] is the file system; [Path("")] is the current directory, and a path is never false.  [thread] tells
    whether the thread made last is running; [dropped], whether a running one was replaced. *)
Record tab := { charge_text : text; reference_text : text; enabled : bool; thread : bool; dropped : bool }.
Definition path (t : text) : text := match t with [] => ["."%char] | _ => t end.
Definition truth_of_path (_ : text) : bool := true.
Definition check_paths (exists_ : text -> bool) (s : tab) : tab :=
  let valid_charge := exists_ (path (charge_text s)) in
  let valid_reference := exists_ (path (reference_text s)) || negb (truth_of_path (path (reference_text s))) in
  {| charge_text := charge_text s; reference_text := reference_text s; enabled := valid_charge && valid_reference;
     thread := thread s; dropped := dropped s |}.
Inductive happening := EditCharge (t : text) | EditReference (t : text) | Press | Finished | Failed.
Definition with_button (s : tab) (e th d : bool) : tab :=
  {| charge_text := charge_text s; reference_text := reference_text s; enabled := e; thread := th; dropped := d |}.
(** [Finished] and [Failed] are the signals [finished] and [error] of the worker; only [finished] is connected to
    [quit].  A disabled button cannot be pressed; a worker whose thread does not run emits nothing. *)
Definition happens (exists_ : text -> bool) (s : tab) (h : happening) : tab :=
  match h with
  | EditCharge t => if list_eq_dec Ascii.ascii_dec t (charge_text s) then s else
      check_paths exists_ {| charge_text := t; reference_text := reference_text s; enabled := enabled s; thread := thread s; dropped := dropped s |}
  | EditReference t => if list_eq_dec Ascii.ascii_dec t (reference_text s) then s else
      check_paths exists_ {| charge_text := charge_text s; reference_text := t; enabled := enabled s; thread := thread s; dropped := dropped s |}
  | Press => if enabled s then with_button s false true (dropped s || thread s) else s
  | Finished => if thread s then with_button s true false (dropped s) else s
  | Failed => if thread s then with_button s true (thread s) (dropped s) else s
  end.
Definition tab_start : tab := {| charge_text := []; reference_text := []; enabled := false; thread := false; dropped := false |}.

(** ** Export, export_tab.py, lines 99-136 *)
Inductive source := Charge | Reference.
(** [self.data_source.currentText == "Charge"] compares a method with a text. *)
Definition method_equals_text (chosen : source) : bool := false.
Definition has_dot (t : text) : bool := existsb (Ascii.eqb "."%char) t.
(** The part of the filter between "*" and ")". *)
Definition filter_ext (f : fmt) : text :=
  list_ascii_of_string (match f with Vasp => ".vasp" | Cube => ".cube" | Hdf5 => ".hdf5" end).
(** [Path.suffix]: of the last component, from its last dot, unless that is its first or last character. *)
Fixpoint take_until (c : ascii) (t : text) : text * option text :=
  match t with
  | [] => ([], None)
  | x :: r => if Ascii.eqb x c then ([], Some r) else let '(a, b) := take_until c r in (x :: a, b)
  end.
Definition last_component (t : text) : text := rev (fst (take_until "/"%char (rev t))).
Definition suffix (t : text) : text :=
  match take_until "."%char (rev (last_component t)) with
  | ((_ :: _) as e, Some (_ :: _)) => "."%char :: rev e
  | _ => []
  end.
Fixpoint lstrip_dots (t : text) : text := match t with c :: r => if Ascii.eqb c "."%char then lstrip_dots r else t | [] => [] end.
Definition strip_dots (t : text) : text := rev (lstrip_dots (rev (lstrip_dots t))).
(** [Format(text)] *)
Definition format_of (t : text) : option fmt :=
  let is s := if list_eq_dec Ascii.ascii_dec t (list_ascii_of_string s) then true else false in
  if is "vasp"%string then Some Vasp else if is "cube"%string then Some Cube else if is "hdf5"%string then Some Hdf5 else None.
(** The arrays are flat; the result is the name, the format and the values that are written.  An empty name is that of a
    dialog that was cancelled: [ext] is not bound then. *)
Definition export_basins (chosen : source) (filename : text) (selected : fmt) (charge reference : list Q) (labels visible : list Z) :
    option (text * fmt * list Q) :=
  let named := match filename with
    | [] => None
    | _ => if negb (has_dot filename) then Some (filename ++ filter_ext selected, filter_ext selected)
           else Some (filename, suffix filename)
    end in
  let total := if method_equals_text chosen then charge else reference in
  let total := map (fun '(b, v) => if isin visible b then v else 0%Q) (combine labels total) in
  match named with
  | None => None
  | Some (name, ext) => match format_of (strip_dots ext) with Some f => Some (name, f, total) | None => None end
  end.
