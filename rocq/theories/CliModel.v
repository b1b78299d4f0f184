(** The command line (command_line/base.py) and the guess of a file's format: [detect_format] of
    core/utilities/file_parsers.py (lines 109-143) with [Format] (lines 19-38), [Grid.from_dynamic] and [Grid.write] of
    core/toolkit/grid.py (lines 1503-1546, 1612-1644).

    A file is its text; typer, logging and the check that a file exists are not modelled, nor the limit on the digits of
    an integer.  [None] stands for an exception.  A grid in memory is the [vgrid] of VaspModel with its format;
    the conversions of a structure to and from the lists of a cube file ([of_cube], [to_cube]), the hdf5 format and the
    interpolation of [regrid] are parameters. *)
From Coq Require Import Ascii String QArith Qround Qabs.
From Verif Require Import Base GridModel ChargeModel NearModel TextModel GobjModel VaspModel CubeModel.
Local Open Scope Z_scope.

(** ** The format of a file *)
Inductive fmt := Vasp | Cube | Hdf5.
(** Lines 117-122: [next(f)] raises at the end of the file. *)
Definition next (t : text) : option (text * text) := match readline t with ([], _) => None | (l, r) => Some (l, r) end.
Definition third_line (t : text) : option text :=
  obnd (next t) (fun '(_, t) => obnd (next t) (fun '(_, t) => obnd (next t) (fun '(l, _) => Some l))).
(** Line 133. *)
Definition signature : text := ["137"; "H"; "D"; "F"; "013"; "010"; "026"; "010"]%char.
(** Lines 109-143; [decodes]: the first lines are text in the encoding of the system. *)
Definition detect_format (decodes : text -> bool) (file : text) : option fmt :=
  match (if decodes file then third_line file else None) with
  | Some l =>
      let n := List.length (split l) in
      if Nat.eqb n 3 then Some Vasp else if Nat.eqb n 4 then Some Cube else None
  | None => if text_eqb (firstn 8 file) signature then Some Hdf5 else None
  end.

(** ** Reading and writing grids *)
Record held := Held { h_format : fmt; h_grid : vgrid }.
Section Commands.
Variable root : Q -> Q.
Variable sample : list Q -> list Q.
Variable decodes : text -> bool.
Variable of_cube : cgrid -> vgrid.
Variable to_cube : vgrid -> cgrid.
Variable read_hdf5 : text -> option vgrid.
Variable write_hdf5 : vgrid -> text.

(** grid.py 1533-1546 with the readers of lines 1310-1500; only [from_vasp] looks at [total_only]. *)
Definition read_as (f : fmt) (total_only : bool) (file : text) : option vgrid :=
  match f with
  | Vasp => read_vasp root total_only file
  | Cube => obnd (read_cube sample file) (fun '(g, _, _, _) => Some (of_cube g))
  | Hdf5 => read_hdf5 file
  end.
Definition from_dynamic (format : option fmt) (total_only : bool) (file : text) : option held :=
  obnd (match format with Some f => Some f | None => detect_format decodes file end) (fun f =>
  obnd (read_as f total_only file) (fun g => Some (Held f g))).
(** grid.py 1636-1644. *)
Definition write (h : held) (output_format : option fmt) : text :=
  match match output_format with Some f => f | None => h_format h end with
  | Vasp => write_vasp false (h_grid h)
  | Cube => fst (write_cube (to_cube (h_grid h)) None None)
  | Hdf5 => write_hdf5 (h_grid h)
  end.

(** ** The commands *)
(** base.py 392-395; [total_only] is left at its default of grid.py 1303. *)
Definition convert (file : text) (output_format : fmt) (input_format : option fmt) : option text :=
  obnd (from_dynamic input_format true file) (fun h => Some (write h (Some output_format))).

(** base.py 209-222 with [linear_add] (grid.py 1095-1113). *)
Definition keys (g : vgrid) : list key := map fst (v_data g).
Definition shape_of (g : vgrid) : option (Z * Z * Z) := obnd (lookup Total (v_data g)) (fun a => Some (a_shape a)).
Definition shape_eqb (s t : option (Z * Z * Z)) : bool :=
  match s, t with Some (a, b, c), Some (d, e, f) => (a =? d) && (b =? e) && (c =? f) | _, _ => false end.
Fixpoint keys_eqb (a b : list key) : bool :=
  match a, b with [], [] => true | x :: a, y :: b => key_eqb x y && keys_eqb a b | _, _ => false end.
Definition arr_add (a b : arr) : arr := Arr (a_shape a) (fun i j k => a_at a i j k + a_at b i j k)%Q.
Definition linear_sum (g1 g2 : vgrid) : option vgrid :=
  if keys_eqb (keys g1) (keys g2) then
    Some (VGrid (v_matrix g1) (v_sites g1)
      (map (fun '((k, a), (_, b)) => (k, arr_add a b)) (combine (v_data g1) (v_data g2))) [])
  else None.
Definition sum (file1 file2 : text) (input_format output_format : option fmt) : option text :=
  obnd (from_dynamic input_format false file1) (fun h1 => obnd (from_dynamic input_format false file2) (fun h2 =>
  if shape_eqb (shape_of (h_grid h1)) (shape_of (h_grid h2)) then
    obnd (linear_sum (h_grid h1) (h_grid h2)) (fun g => Some (write (Held (h_format h1) g) output_format))
  else None)).

(** base.py 271-282; [regrid] of grid.py 906-914 makes a grid without a format, which is then VASP's (line 124). *)
Definition regrid (zoom : arr -> arr) (file : text) (input_format output_format : option fmt) : option text :=
  obnd (from_dynamic input_format false file) (fun h => let g := h_grid h in
  Some (write (Held Vasp (VGrid (v_matrix g) (v_sites g) (map (fun '(k, a) => (k, zoom a)) (v_data g)) [])) output_format)).
End Commands.

(** ** Names of files: [pathlib] *)
Definition mem (c : ascii) (cs : text) : bool := existsb (Ascii.eqb c) cs.
(** [str.strip(chars)]. *)
Definition strip_chars (cs t : text) : text :=
  let left u := snd (span (fun c => mem c cs) u) in rev (left (rev (left t))).
(** [name.rfind(".")] splits off what follows the last full stop; it counts if neither side is empty. *)
Definition not_dot (c : ascii) : bool := negb (Ascii.eqb c ".").
Definition stem_suffix (name : text) : text * text :=
  match span not_dot (rev name) with
  | (e, d :: s) => if is_nil e || is_nil s then (name, []) else (rev s, d :: rev e)
  | (_, []) => (name, [])
  end.
(** base.py 344-349 and 278. *)
Definition split_names (name : text) : text * text :=
  let suffix := snd (stem_suffix name) in let base := strip_chars suffix name in
  (base ++ lit "_up" ++ suffix, base ++ lit "_down" ++ suffix).
Definition regrid_name (name : text) : text := fst (stem_suffix name) ++ lit "_regrid".

(** ** Arguments *)
(** [str.split(",")]. *)
Fixpoint split_comma (t : text) : list text :=
  match t with
  | [] => [[]]
  | c :: t => if Ascii.eqb c "," then [] :: split_comma t
              else match split_comma t with w :: r => (c :: w) :: r | [] => [[c]] end
  end.
(** [int(str)]: white space around, a sign, digits with single underscores between them. *)
Fixpoint digits (after : bool) (t : text) : option text :=
  match t with
  | [] => if after then Some [] else None
  | c :: t => if is_digit c then obnd (digits true t) (fun d => Some (c :: d))
              else if after && Ascii.eqb c "_" then digits false t else None
  end.
Definition py_int (t : text) : option Z := let '(s, d) := sign (strip t) in obnd (digits false d) (fun d => Some (s * number d)).
(** base.py 141-144, 502-505, 592-595. *)
Inductive indices := Ints (l : list Z) | Names (l : list text).
Definition parse_indices (t : text) : indices :=
  let words := split_comma (strip_chars (lit "[] ") t) in
  match map_opt py_int words with Some l => Ints l | None => Names (map strip words) end.

(** base.py 47-60; letters are ASCII and the words "inf" and "nan" are not numbers here. *)
Definition lower (c : ascii) : ascii := if (65 <=? code c) && (code c <=? 90) then ascii_of_nat (Z.to_nat (code c + 32)) else c.
Inductive tolerance := Flag (b : bool) | Number (q : Q).
Definition one_of (t : text) (l : list string) : bool := existsb (fun s => text_eqb t (lit s)) l.
Definition float_or_bool (t : text) : option tolerance :=
  let w := map lower t in
  if one_of w ["true"; "t"; "yes"; "y"]%string then Some (Flag true)
  else if one_of w ["false"; "f"; "no"; "n"]%string then Some (Flag false)
  else obnd (float_of (strip t)) (fun q => Some (Number q)).

(** base.py 37-44, 149-163: the calls for a print option. *)
Inductive print := AllAtoms | SelAtoms | SumAtoms | AllBasins | SelBasins | SumBasins | SelSpec.
Inductive entry := Index (i : Z) | Name (t : text).
Definition entries (x : indices) : list entry := match x with Ints l => map Index l | Names l => map Name l end.
Inductive call := WriteAllAtoms | WriteAllBasins | WriteAtoms (l : list entry) | WriteBasins (l : list entry)
  | WriteAtomsSum (l : list entry) | WriteBasinsSum (l : list entry) | WriteSpecies (e : entry).
Definition run_calls (p : option print) (t : text) : list call :=
  let x := entries (parse_indices t) in
  match p with
  | Some AllAtoms => [WriteAllAtoms]
  | Some AllBasins => [WriteAllBasins]
  | Some SelAtoms => [WriteAtoms x]
  | Some SelBasins => [WriteBasins x]
  | Some SumAtoms => [WriteAtomsSum x]
  | Some SumBasins => [WriteBasinsSum x]
  | Some SelSpec => map WriteSpecies x
  | None => []
  end.
