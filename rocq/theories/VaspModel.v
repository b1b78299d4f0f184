(** VASP files, [read_vasp] and [write_vasp] of core/utilities/file_parsers.py (lines 146-315 and 318-435).

    A file is a text without carriage returns, a structure is its lattice and its sites (symbol and fractional
    coordinates).  [None] stands for an exception or for the call of the debugger in line 252.  Values are
    exact rationals, so the exponent of line 366 is the exact one.  Grids without points are not modelled, nor is
    the guess of the number of significant figures. *)
From Coq Require Import Ascii String QArith Qround Qabs.
From Verif Require Import Base GridModel ChargeModel NearModel TextModel GobjModel.
Local Open Scope Z_scope.

Fixpoint text_eqb (a b : text) : bool :=
  match a, b with [], [] => true | x :: a, y :: b => Ascii.eqb x y && text_eqb a b | _, _ => false end.
Definition nl (t : text) : text := t ++ [newline].

(** Augmentation data: the text [read_vasp] returns, or the list of lines pymatgen returns. *)
Inductive augmentation := AugText (t : text) | AugLines (ls : list text).
Record vgrid := VGrid { v_matrix : mat; v_sites : list (text * vec); v_data : list (key * arr); v_aug : list (key * augmentation) }.

(** ** Writing *)
(** [arr.ravel(order="F")]: the first index runs fastest. *)
Definition forder (s : Z * Z * Z) : list (Z * Z * Z) := let '(nx, ny, nz) := s in map (fun '(k, j, i) => (i, j, k)) (voxels nz ny nx).
Definition ravel (a : arr) : list Q := map (fun '(i, j, k) => a_at a i j k) (forder (a_shape a)).

(** [l[i : i + n] for i in range(0, len(l), n)]. *)
Fixpoint chunks_f {A} (fuel n : nat) (l : list A) : list (list A) :=
  match fuel, l with
  | S f, _ :: _ => firstn n l :: chunks_f f n (skipn n l)
  | _, _ => []
  end.
Definition chunks {A} (n : nat) (l : list A) : list (list A) := chunks_f (List.length l) n l.
Fixpoint join (sep : text) (l : list text) : text :=
  match l with [] => [] | [t] => t | t :: r => t ++ sep ++ join sep r end.
(** Lines 337-350. *)
Definition format_fortran_arr (line_len : nat) (l : list (Z * Z)) : text :=
  let formatted := map (fun '(m, e) => format_fortran m e) l in
  match formatted with [] => [] | _ => join [newline] (map (@List.concat ascii) (chunks line_len formatted)) ++ [newline] end.
(** Lines 353-375. *)
Definition write_vasp_data (chunk_lines line_len : nat) (a : arr) : text :=
  List.concat (map (format_fortran_arr line_len) (chunks (line_len * chunk_lines) (map (fun q => (fortran_mant q, fortran_exp q)) (ravel a)))).

(** [Poscar.site_symbols] and [Poscar.natoms]: runs of equal symbols. *)
Fixpoint runs (l : list text) : list (text * Z) :=
  match l with
  | [] => []
  | s :: t =>
      match runs t with
      | (s', n) :: r => if text_eqb s s' then (s', n + 1) :: r else (s, 1) :: (s', n) :: r
      | [] => [(s, 1)]
      end
  end.
(** Lines 396-411. *)
Definition row_text (w : nat) (v : vec) : text := let '(x, y, z) := v in fmt_f6 w x ++ fmt_f6 w y ++ fmt_f6 w z.
Definition header (vasp4 : bool) (m : mat) (sites : list (text * vec)) : text :=
  let '(a, b, c) := m in let rs := runs (map fst sites) in
  nl (lit "Written by BaderKit") ++ nl (lit "   1.00000000000000")
  ++ nl (space :: row_text 12 a) ++ nl (space :: row_text 12 b) ++ nl (space :: row_text 12 c)
  ++ (if vasp4 then [] else nl (List.concat (map (fun '(s, _) => pad_right 5 s) rs)))
  ++ nl (List.concat (map (fun '(_, n) => fmt_int 6 n) rs))
  ++ nl (lit "Direct") ++ List.concat (map (fun '(_, v) => nl (row_text 10 v)) sites) ++ nl [space].
(** Line 424. *)
Definition dims_text (s : Z * Z * Z) : text := let '(nx, ny, nz) := s in fmt_int 6 nx ++ fmt_int 6 ny ++ fmt_int 6 nz.
(** Lines 430-435: a text is iterated character by character. *)
Definition ends_newline (t : text) : bool := match rev t with c :: _ => Ascii.eqb c newline | [] => false end.
Definition aug_items (a : augmentation) : list text := match a with AugText t => map (fun c => [c]) t | AugLines ls => ls end.
Definition aug_text (a : augmentation) : text := List.concat (map (fun l => if ends_newline l then l else l ++ [newline]) (aug_items a)).
Definition write_set (g : vgrid) (k : key) : text :=
  match lookup k (v_data g) with
  | None => []
  | Some a =>
      nl (dims_text (a_shape a)) ++ write_vasp_data 50 5 a
      ++ match lookup k (v_aug g) with Some a => aug_text a | None => [] end
  end.
Definition write_vasp (vasp4 : bool) (g : vgrid) : text :=
  header vasp4 (v_matrix g) (v_sites g) ++ List.concat (map (write_set g) [Total; Diff; DiffX; DiffY; DiffZ]).

(** ** Reading *)
Definition obnd {A B} (o : option A) (f : A -> option B) : option B := match o with Some a => f a | None => None end.
Definition vec_of (l : list Q) : option vec := match l with [x; y; z] => Some (x, y, z) | _ => None end.
Definition vec_line (l : text) : option vec := obnd (floats_of l) vec_of.
(** Line 169: the first three words. *)
Definition coord_line (l : text) : option vec := obnd (map_opt float_of (firstn 3 (split l))) vec_of.
Fixpoint coord_lines (n : nat) (t : text) : option (list vec * text) :=
  match n with
  | O => Some ([], t)
  | S n => let '(l, t) := readline t in obnd (coord_line l) (fun v => obnd (coord_lines n t) (fun '(vs, t) => Some (v :: vs, t)))
  end.

(** Lines 248-267. *)
Fixpoint aug_lines (fuel : nat) (dims t : text) : text * text :=
  match fuel with
  | O => ([], t)
  | S f =>
      match readline t with
      | ([], _) => ([], [])
      | (l, r) => if text_eqb (strip l) dims then ([], r) else let '(a, r') := aug_lines f dims r in (l ++ a, r')
      end
  end.
(** Lines 219-269: [nb] bytes hold the [n] values of one set; [t] is the file from the current position. *)
Fixpoint blocks (fuel : nat) (total_only : bool) (n nb : nat) (dims t : text) (acc : list (list Q * text)) : option (list (list Q * text)) :=
  match fuel with
  | O => None
  | S f =>
      match t with
      | [] => Some acc
      | _ =>
          if total_only && Nat.eqb (List.length acc) 1 then Some acc
          else let vals := fromstring n (firstn nb t) in
               if Nat.ltb (List.length vals) n then Some acc
               else if Nat.ltb (List.length t) nb then None
               else let '(a, r) := aug_lines (S (List.length t)) dims (skipn nb t) in
                    blocks f total_only n nb dims r (acc ++ [(vals, a)])
      end
  end.

Section Read.
Variable root : Q -> Q.
(** Lines 238-242. *)
Definition reshape (s : Z * Z * Z) (l : list Q) : arr :=
  let '(nx, ny, nz) := s in Arr s (fun i j k => nth (Z.to_nat (i + nx * (j + ny * k))) l 0%Q).
(** Lines 295-300. *)
Definition qsgn (q : Q) : Q := if Qltb 0 q then 1%Q else if Qltb q 0 then (-(1))%Q else 0%Q.
Definition magnitude (s : Z * Z * Z) (x y z : arr) : arr :=
  Arr s (fun i j k => let a := a_at x i j k in let b := a_at y i j k in let c := a_at z i j k in
                      (root (a * a + b * b + c * c) * qsgn ((101 # 100) * a + (102 # 100) * b + (103 # 100) * c))%Q).
(** Lines 273-310. *)
Definition sets (s : Z * Z * Z) (l : list (list Q * text)) : option (list (key * arr) * list (key * augmentation)) :=
  match l with
  | [(a, ta); (b, tb); (c, tc); (d, td)] =>
      let x := reshape s b in let y := reshape s c in let z := reshape s d in
      Some ([(Total, reshape s a); (DiffX, x); (DiffY, y); (DiffZ, z); (Diff, magnitude s x y z)],
            [(Total, AugText ta); (DiffX, AugText tb); (DiffY, AugText tc); (DiffZ, AugText td)])
  | [(a, ta); (b, tb)] => Some ([(Total, reshape s a); (Diff, reshape s b)], [(Total, AugText ta); (Diff, AugText tb)])
  | (a, ta) :: _ => Some ([(Total, reshape s a)], [(Total, AugText ta)])
  | [] => None
  end.
(** Lines 195, 207-217. *)
Definition block_bytes (n : nat) (line : text) : option nat :=
  let v := List.length (split line) in
  if Nat.eqb v 0 then None
  else let len := List.length line in let extra := Nat.modulo len v in
       Some (Nat.div (len - extra) v * n + Nat.div (n + v - 1) v * extra)%nat.

(** Lines 146-315. *)
Definition read_data (total_only : bool) (dims_line t : text) : option (list (key * arr) * list (key * augmentation)) :=
  obnd (ints_of dims_line) (fun ds =>
  match ds with
  | [nx; ny; nz] =>
      if (1 <=? nx) && (1 <=? ny) && (1 <=? nz) then
        let n := Z.to_nat (nx * ny * nz) in
        obnd (block_bytes n (fst (readline t))) (fun nb =>
        obnd (blocks (S (List.length t)) total_only n nb (strip dims_line) t []) (sets (nx, ny, nz)))
      else None
  | _ => None
  end).
Definition scale_mat (q : Q) (m : mat) : mat := let '(a, b, c) := m in (vmap (fun x => x * q)%Q a, vmap (fun x => x * q)%Q b, vmap (fun x => x * q)%Q c).
Definition read_vasp (total_only : bool) (file : text) : option vgrid :=
  let '(_, t) := readline file in
  let '(l, t) := readline t in obnd (float_of (strip l)) (fun scale =>
  let '(l1, t) := readline t in let '(l2, t) := readline t in let '(l3, t) := readline t in
  obnd (vec_line l1) (fun a => obnd (vec_line l2) (fun b => obnd (vec_line l3) (fun c =>
  let '(l, t) := readline t in let types := split l in
  let '(l, t) := readline t in obnd (ints_of l) (fun counts =>
  let '(_, t) := readline t in
  obnd (coord_lines (Z.to_nat (fold_left Z.add counts 0)) t) (fun '(coords, t) =>
  let '(_, t) := readline t in
  let '(dl, t) := readline t in
  let species := List.concat (map (fun '(s, n) => repeat s (Z.to_nat n)) (combine types counts)) in
  if Nat.eqb (List.length species) (List.length coords) then
    obnd (read_data total_only dl t) (fun '(data, aug) =>
    Some (VGrid (scale_mat scale (a, b, c)) (combine species coords) data aug))
  else None)))))).
End Read.
