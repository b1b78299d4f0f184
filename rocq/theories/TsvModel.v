(** Summaries as tables: [get_atom_results_dataframe], [get_basin_results_dataframe], [write_atom_tsv] and
    [write_basin_tsv] of core/bader/bader.py (lines 1414-1559) and the same functions of core/badelf/badelf.py (lines
    1424-1502) and core/badelf/badelf_spin.py (lines 922-1007).

    A data frame is the list of its columns; [None] stands for the exception of pandas for columns of different lengths.
    Numbers are exact rationals, so there is no NaN and no negative zero.  A label is a text. *)
From Coq Require Import Ascii String QArith Qround Qabs.
From Verif Require Import Base ChargeModel NearModel TextModel GobjModel VaspModel.
Local Open Scope Z_scope.

Definition tab : ascii := "009"%char.
(** [f"{q:.5f}"]. *)
Definition fixed5 (q : Q) : Z := py_round (Qabs q * inject_Z 100000).
Definition fmt_f5 (q : Q) : text :=
  let n := fixed5 q in (if Qle_bool 0 q then [] else ["-"%char]) ++ dec (n / 100000) ++ "."%char :: zeros 5 (dec (n mod 100000)).

(** ** Data frames *)
Inductive column := Texts (l : list text) | Numbers (l : list Q).
Definition col_len (c : column) : nat := match c with Texts l => List.length l | Numbers l => List.length l end.
Definition cells (c : column) : list text := match c with Texts l => l | Numbers l => map fmt_f5 l end.
Definition frame := list (text * column).
Definition data_frame (f : frame) : option frame :=
  match f with
  | [] => Some []
  | (_, c) :: r => if forallb (fun '(_, d) => Nat.eqb (col_len d) (col_len c)) r then Some f else None
  end.
Definition vx (v : vec) : Q := let '(x, _, _) := v in x.
Definition vy (v : vec) : Q := let '(_, y, _) := v in y.
Definition vz (v : vec) : Q := let '(_, _, z) := v in z.
(** bader.py 1425-1437, badelf.py 1434-1446; badelf_spin.py 933-945 leaves out the last column. *)
Definition coord_cols (frac : list vec) : frame := [(lit "x", Numbers (map vx frac)); (lit "y", Numbers (map vy frac)); (lit "z", Numbers (map vz frac))].
Definition atom_frame (labels : list text) (frac : list vec) (charges volumes : list Q) (dists : option (list Q)) : option frame :=
  data_frame ((lit "label", Texts labels) :: coord_cols frac ++ [(lit "charge", Numbers charges); (lit "volume", Numbers volumes)]
    ++ match dists with Some d => [(lit "surface_dist", Numbers d)] | None => [] end).
(** bader.py 1449-1463; a mask of another length, or a basin of no atom, raises. *)
Fixpoint select {A} (mask : list bool) (l : list A) : option (list A) :=
  match mask, l with
  | [], [] => Some []
  | b :: m, a :: t => obnd (select m t) (fun r => Some (if b then a :: r else r))
  | _, _ => None
  end.
Definition np_nth {A} (l : list A) (i : Z) : option A :=
  let n := Z.of_nat (List.length l) in
  if (0 <=? i) && (i <? n) then nth_error l (Z.to_nat i)
  else if (- n <=? i) && (i <? 0) then nth_error l (Z.to_nat (n + i)) else None.
Definition basin_frame (labels : list text) (significant : list bool) (frac : list vec) (atoms : list Z) (charges volumes surface dist : list Q) : option frame :=
  obnd (select significant frac) (fun frac => obnd (obnd (select significant atoms) (map_opt (np_nth labels))) (fun names =>
  obnd (select significant charges) (fun c => obnd (select significant volumes) (fun v => obnd (select significant surface) (fun s => obnd (select significant dist) (fun d =>
  data_frame ((lit "atoms", Texts names) :: coord_cols frac ++ [(lit "charge", Numbers c); (lit "volume", Numbers v); (lit "surface_dist", Numbers s); (lit "atom_dist", Numbers d)]))))))).

(** ** Writing (bader.py 1479-1508 and 1529-1559) *)
Definition width (c : text * column) : nat := fold_left Nat.max (map (@List.length _) (cells (snd c))) (List.length (fst c)).
Definition tsv_line (ws : list nat) (vals : list text) : text := nl (join [tab] (map (fun '(w, v) => pad_right w v) (combine ws vals))).
Definition row_of (f : frame) (i : nat) : list text := map (fun '(_, c) => nth i (cells c) []) f.
Definition frame_rows (f : frame) : nat := match f with [] => O | (_, c) :: _ => col_len c end.
Definition tsv (f : frame) : text :=
  let ws := map width f in
  tsv_line ws (map fst f) ++ List.concat (map (fun i => tsv_line ws (row_of f i)) (seq 0 (frame_rows f))).
(** bader.py 1510-1514. *)
Record totals := Totals { t_vac_charge : Q; t_vac_volume : Q; t_electrons : Q; t_volume : Q }.
Definition atom_footer (t : totals) : text :=
  nl [] ++ nl (lit "Vacuum Charge:" ++ tab :: tab :: fmt_f5 (t_vac_charge t)) ++ nl (lit "Vacuum Volume:" ++ tab :: tab :: fmt_f5 (t_vac_volume t))
  ++ nl (lit "Total Electrons:" ++ tab :: fmt_f5 (t_electrons t)) ++ nl (lit "Total Volume:" ++ tab :: fmt_f5 (t_volume t)).
(** badelf.py 1498-1501, badelf_spin.py 1003-1006. *)
Definition badelf_footer (electrons : Q) : text := nl [] ++ nl (lit "Total Electrons:" ++ tab :: fmt_f5 electrons).
Definition write_atom_tsv (labels : list text) (frac : list vec) (charges volumes dists : list Q) (t : totals) : option text :=
  obnd (atom_frame labels frac charges volumes (Some dists)) (fun f => Some (tsv f ++ atom_footer t)).
Definition write_basin_tsv (labels : list text) (significant : list bool) (frac : list vec) (atoms : list Z) (charges volumes surface dist : list Q) : option text :=
  obnd (basin_frame labels significant frac atoms charges volumes surface dist) (fun f => Some (tsv f)).
(** badelf.py 1448-1502. *)
Definition badelf_tsv (labels : list text) (frac : list vec) (charges volumes : list Q) (dists : option (list Q)) (electrons : Q) : option text :=
  obnd (atom_frame labels frac charges volumes dists) (fun f => Some (tsv f ++ badelf_footer electrons)).
(** badelf_spin.py 963-969: with [write_spin] the attribute [parent] of the path is taken before the path is made one. *)
Inductive path := PathOf (parent stem suffix : text) | TextPath (t : text).
Definition spin_tsv_paths (p : path) (write_spin : bool) : option (list text) :=
  if write_spin then
    match p with
    | PathOf d s x => Some [d ++ s ++ lit "_up" ++ x; d ++ s ++ lit "_down" ++ x; d ++ s ++ x]
    | TextPath _ => None
    end
  else match p with PathOf d s x => Some [d ++ s ++ x] | TextPath t => Some [t] end.
