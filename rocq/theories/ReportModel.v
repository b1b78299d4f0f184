(** What the labeler reports per atom and per feature, core/labelers/elf_labeler/elf_labeler.py lines 339-377 and 446-672
    (electrides, radii, features of the atoms), 1005-1054 (oxidation states), 1334-1414 (structures with features),
    1474-1514 (smallest radii) and 1516-1558 (surface distances); core/labelers/elf_labeler/elf_labeler_numba.py lines
    74-124; elf_radii.py lines 41-58; bifurcation_graph/graph.py lines 194-262; bifurcation_graph/enum_and_styling.py;
    the oxidation states of bader.py lines 808-846 and badelf.py lines 811-849.

    Nodes are given by the list of irreducible nodes in graph order.  Numbers are exact rationals and the rounding to ten
    digits is left out; reading and parsing a POTCAR is left out: it is the list of its elements and electron counts.
    A site of a structure is its symbol and its fractional coordinates. *)
From Coq Require Import QArith String.
From Verif Require Import Base RootsModel UnionModel GridModel NeighModel ChargeModel LabelsModel NearModel SurfaceModel MarkModel.
Local Open Scope nat_scope.

(** ** Feature types *)
(** [FEATURE_DUMMY_ATOMS], enum_and_styling.py lines 37-50, with [dummy_species], lines 197-206. *)
Definition dummy_species (t : ftype) : string :=
  match t with
  | Unknown => "X" | Shell => "Xs" | Core => "Xc" | Covalent => "Z" | CovalentMetallic => "Z"
  | ShallowCovalentMetallic => "Z" | Metallic => "M" | LonePair => "Lp" | MultiCentered => "Zm"
  | Electride => "E" | BareElectron => "E"
  end%string.
(** Lines 139-150 and 156-158. *)
Definition valence_types : list ftype :=
  [Covalent; CovalentMetallic; ShallowCovalentMetallic; Metallic; Electride; BareElectron; Unknown; MultiCentered].
Definition bare_types : list ftype := [Electride; BareElectron].
Definition type_in (t : ftype) (l : list ftype) : bool := existsb (ftype_eqb t) l.

Record rnode := RNode {
  r_type : ftype;
  r_basins : list nat;
  r_frac : vec;                 (** [average_frac_coords] *)
  r_charge : Q;
  r_max : Q;                    (** [max_value] *)
  r_coord : list nat;           (** [coord_indices] *)
  r_coord_e : list nat          (** [coord_indices_e] *)
}.
Definition no_node : rnode := RNode Unknown [] (0, 0, 0)%Q 0 0 [] [].
Definition site_of (n : rnode) : string * vec := (dummy_species (r_type n), r_frac n).

(** ** Structures with features *)
(** [get_feature_nodes], graph.py lines 244-262; [electride_structure], 194-208; [labeled_structure], 228-242. *)
Definition get_feature_nodes (nodes : list rnode) (types : list ftype) : list rnode :=
  filter (fun n => type_in (r_type n) types) nodes.
Definition electride_structure (atoms : list (string * vec)) (nodes : list rnode) : list (string * vec) :=
  fold_left (fun s n => s ++ [site_of n]) (get_feature_nodes nodes bare_types) atoms.
Definition labeled_structure (atoms : list (string * vec)) (nodes : list rnode) : list (string * vec) :=
  fold_left (fun s n => s ++ [site_of n]) nodes atoms.
Definition nelectrides (atoms : list (string * vec)) (nodes : list rnode) : nat :=
  List.length (electride_structure atoms nodes) - List.length atoms.

(** [feature_indices_by_type], lines 1000-1003. *)
Definition indices_by_type (nodes : list rnode) (types : list ftype) : list nat :=
  filter (fun i => type_in (r_type (nth i nodes no_node)) types) (seq 0 (List.length nodes)).
(** Lines 1366-1374. *)
Fixpoint split_bare (nodes : list rnode) (l bares others : list nat) : list nat :=
  match l with
  | [] => bares ++ others
  | i :: t => if type_in (r_type (nth i nodes no_node)) bare_types then split_bare nodes t (bares ++ [i]) others
              else split_bare nodes t bares (others ++ [i])
  end.
(** [get_feature_structure_by_index], lines 1402-1414. *)
Definition structure_by_index (atoms : list (string * vec)) (nodes : list rnode) (idx : list nat) : list (string * vec) :=
  fold_left (fun s i => s ++ [site_of (nth i nodes no_node)]) idx atoms.
(** [get_feature_structure], lines 1362-1382, with [return_feat_indices]. *)
Definition get_feature_structure (atoms : list (string * vec)) (nodes : list rnode) (included : list ftype) (order_by_type : bool)
    : list (string * vec) * list nat :=
  let idx0 := indices_by_type nodes included in
  let idx := if order_by_type then split_bare nodes idx0 [] [] else idx0 in
  (structure_by_index atoms nodes idx, idx).

(** [_get_nn_atom_elf_radii], lines 1443-1462: the types that count as covalent; elf_radii.py lines 50-58: their sites. *)
Definition covalent_types (use_electrides : bool) : list ftype :=
  if use_electrides then filter (fun t => negb (type_in t bare_types)) valence_types else valence_types.
Definition indices_from_symbol (s : list (string * vec)) (symbol : string) : list nat :=
  filter (fun i => String.eqb (fst (nth i s (""%string, (0, 0, 0)%Q))) symbol) (seq 0 (List.length s)).
Definition covalent_labels (s : list (string * vec)) (symbols : list string) : list bool :=
  fold_left (fun l symbol => fold_left (fun l i => upd l i true) (indices_from_symbol s symbol) l) symbols
    (repeat false (List.length s)).

(** ** Features of the atoms *)
Definition append_at (l : list (list nat)) (i x : nat) : outcome (list (list nat)) :=
  if i <? List.length l then Done (upd l i (nth i l [] ++ [x])) else Raised.
(** Lines 638-643; reading the first of no neighbours raises IndexError. *)
Fixpoint add_atom_features (l : list (list nat)) (i : nat) (nodes : list rnode) : outcome (list (list nat)) :=
  match nodes with
  | [] => Done l
  | n :: t =>
      if (Nat.eqb (List.length (r_coord n)) 1 && negb (type_in (r_type n) bare_types))%bool
      then match r_coord_e n with
           | [] => Raised
           | a :: _ => obind (append_at l a i) (fun l1 => add_atom_features l1 (S i) t)
           end
      else add_atom_features l (S i) t
  end.
(** Lines 644-649. *)
Fixpoint add_electride_features (natoms : nat) (l : list (list nat)) (num i : nat) (nodes : list rnode) : outcome (list (list nat)) :=
  match nodes with
  | [] => Done l
  | n :: t =>
      if type_in (r_type n) bare_types
      then obind (append_at l (natoms + num) i) (fun l1 => add_electride_features natoms l1 (S num) (S i) t)
      else add_electride_features natoms l num (S i) t
  end.
(** [atom_feature_indices_e], lines 634-651. *)
Definition atom_feature_indices_e (atoms : list (string * vec)) (nodes : list rnode) : outcome (list (list nat)) :=
  obind (add_atom_features (repeat [] (List.length (electride_structure atoms nodes))) 0 nodes) (fun l =>
    add_electride_features (List.length atoms) l 0 0 nodes).

(** [np.max]; it raises for an empty array. *)
Definition np_max (l : list Q) : outcome Q :=
  match l with [] => Raised | x :: t => Done (fold_left (fun m y => if Qltb m y then y else m) t x) end.
Fixpoint max_values (vals : list Q) (l : list (list nat)) : outcome (list Q) :=
  match l with
  | [] => Done []
  | idx :: t => obind (np_max (map (fun i => nth i vals 0%Q) idx)) (fun m => obind (max_values vals t) (fun r => Done (m :: r)))
  end.
(** [atom_max_values_e], lines 663-670. *)
Definition atom_max_values_e (atoms : list (string * vec)) (nodes : list rnode) : outcome (list Q) :=
  obind (atom_feature_indices_e atoms nodes) (max_values (map r_max nodes)).

(** [electrides_per_formula], lines 373-379. *)
Definition electrides_per_formula (nodes : list rnode) : Q :=
  fold_left (fun s n => if type_in (r_type n) bare_types then (s + r_charge n)%Q else s) nodes 0%Q.

(** ** Smallest radius of each atom *)
(** [np.argmax] of booleans. *)
Fixpoint first_true (l : list bool) : option nat :=
  match l with [] => None | b :: t => if b then Some 0 else option_map S (first_true t) end.
Definition argmax_bool (l : list bool) : outcome nat :=
  match l with [] => Raised | _ => Done (match first_true l with Some i => i | None => 0 end) end.
Definition row {A} (l : list A) (i : nat) : outcome A := match nth_error l i with Some x => Done x | None => Raised end.
(** Lines 1507-1511, one atom. *)
Definition atom_radius (sorted : list nat) (sites : list nat) (radii : list Q) (types : list bool) (i : nat) : outcome (Q * bool) :=
  obind (argmax_bool (map (fun k => Nat.eqb (nth k sites 0) i) sorted)) (fun first =>
    obind (row sorted first) (fun k => obind (row radii k) (fun r => obind (row types k) (fun t => Done (r, t))))).
Fixpoint each_atom (f : nat -> outcome (Q * bool)) (l : list nat) : outcome (list (Q * bool)) :=
  match l with
  | [] => Done []
  | i :: t => obind (f i) (fun x => obind (each_atom f t) (fun r => Done (x :: r)))
  end.
(** [_get_atom_elf_radii], lines 1496-1514; [argsort] is [np.argsort]. *)
Definition get_atom_elf_radii (argsort : list Q -> list nat) (n : nat) (radii : list Q) (types : list bool) (sites : list nat)
    : outcome (list (Q * bool)) :=
  each_atom (atom_radius (argsort radii) sites radii types) (seq 0 n).

(** ** Oxidation states *)
(** The dictionary built from the potcars: later entries replace earlier ones. *)
Fixpoint set_entry (d : list (string * Q)) (k : string) (v : Q) : list (string * Q) :=
  match d with
  | [] => [(k, v)]
  | (k', v') :: t => if String.eqb k' k then (k, v) :: t else (k', v') :: set_entry t k v
  end.
Definition nelectron_data (potcars : list (string * Q)) : list (string * Q) :=
  fold_left (fun d p => set_entry d (fst p) (snd p)) potcars [].
Fixpoint get_entry (d : list (string * Q)) (k : string) : option Q :=
  match d with [] => None | (k', v) :: t => if String.eqb k' k then Some v else get_entry t k end.

(** [ElfLabeler.get_oxidation_and_volumes_from_potcar], lines 1043-1054. *)
Definition labeler_oxidation (potcars : list (string * Q)) (structure : list string) (charges : list Q) : list Q :=
  map (fun '(symbol, q) => ((match get_entry (nelectron_data potcars) symbol with Some v => v | None => 0 end) - q)%Q)
    (combine structure charges).
(** [Bader.get_oxidation_from_potcar], lines 834-846. *)
Fixpoint bader_rows (d : list (string * Q)) (l : list (string * Q)) : outcome (list Q) :=
  match l with
  | [] => Done []
  | (symbol, q) :: t => match get_entry d symbol with
                        | None => Raised
                        | Some v => obind (bader_rows d t) (fun r => Done ((v - q)%Q :: r))
                        end
  end.
Definition bader_oxidation (potcars : list (string * Q)) (structure : list string) (charges : list Q) : outcome (list Q) :=
  bader_rows (nelectron_data potcars) (combine structure charges).
(** [Badelf.get_oxidation_from_potcar], badelf.py lines 835-849; arrays of different lengths are not subtracted. *)
Fixpoint set_valence (d : list (string * Q)) (valence : list Q) (i : nat) (l : list string) : outcome (list Q) :=
  match l with
  | [] => Done valence
  | symbol :: t => match get_entry d symbol with
                   | None => Raised
                   | Some v => if i <? List.length valence then set_valence d (upd valence i v) (S i) t else Raised
                   end
  end.
Definition badelf_oxidation (potcars : list (string * Q)) (structure : list string) (n_electride_structure : nat) (charges : list Q)
    : outcome (list Q) :=
  obind (set_valence (nelectron_data potcars) (repeat 0%Q n_electride_structure) 0 structure) (fun valence =>
    if Nat.eqb (List.length valence) (List.length charges)
    then Done (map (fun '(v, q) => (v - q)%Q) (combine valence charges)) else Raised).

(** ** Surfaces of the features *)
Section FeatureSurface.
Variables nx ny nz : Z.
Variable root : Q -> Q.
Variable matrix : mat.
(** Lines 1529-1532: [junk] is the content of the uninitialised array. *)
Definition feature_map (junk : list Z) (nodes : list rnode) : list Z :=
  fold_left (fun m '(i, n) => fold_left (fun m b => upd m b (Z.of_nat i)) (r_basins n) m)
    (combine (seq 0 (List.length nodes)) nodes) junk.
Definition read_map (m : list Z) (b : Z) : Z := match np_get m b with Some x => x | None => 0%Z end.
(** [get_min_avg_feat_surface_dists], elf_labeler_numba.py lines 87-121. *)
Definition feat_step (labels : arr3 Z) (m : list Z) (coords : list vec) (edge : arr3 bool) (st : sstate) (v : Z * Z * Z) : sstate :=
  if negb (rd edge v) then st
  else
    let label := read_map m (rd labels v) in
    let frac := match np_get coords label with Some f => f | None => (0, 0, 0)%Q end in
    let dist := root (sq_dist nx ny nz matrix frac v) in
    {| u_dists := np_low (u_dists st) label dist; u_sums := np_add (u_sums st) label dist;
       u_totals := np_add (u_totals st) label 1 |}.
Definition get_min_avg_feat_surface_dists (labels : arr3 Z) (m : list Z) (coords : list vec) (edge : arr3 bool) (max_value : Q) : list Q * list Q :=
  let n := List.length coords in
  let st := fold_left (feat_step labels m coords edge) (voxels nx ny nz)
    {| u_dists := repeat max_value n; u_sums := repeat 0%Q n; u_totals := repeat 0%Q n |} in
  (u_dists st, map (fun ab => fst ab / snd ab)%Q (combine (u_sums st) (u_totals st))).
(** [_calculate_feature_surface_dists], lines 1525-1554; [order] is the order in which the parallel loop visits the voxels. *)
Definition calculate_feature_surface_dists (labels : arr3 Z) (vac : arr3 bool) (ts : list offset) (order : list nat)
    (junk : list Z) (nodes : list rnode) (max_value : Q) : list Q * list Q :=
  let m := feature_map junk nodes in
  let edges := get_feature_edges nx ny nz labels (read_map m) ts vac order in
  get_min_avg_feat_surface_dists labels m (map r_frac nodes) (reshape false edges ny nz) max_value.
End FeatureSurface.
