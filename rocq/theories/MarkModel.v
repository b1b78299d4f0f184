(** Chemical labels of the irreducible nodes, core/labelers/elf_labeler/elf_labeler.py lines 2036-2128
    and 2149-2510 ([_mark_cores], [_mark_shells], [_mark_covalent], [_mark_lonepairs],
    [_mark_metallic_or_bare]).

    The graph is that of NodesModel; the feature types, contained atoms and cached neighbours of the node objects are maps
    from references.  Geometry and CrystalNN are given per node by [world]; the radii of the atoms, which the code computes
    between the lone pairs and the last step, are given too.  Exceptions are [Raised]. *)
From Coq Require Import QArith.
From Verif Require Import Base RootsModel UnionModel LabelsModel NodesModel ChargeModel PlaneModel GobjModel.
Local Open Scope Z_scope.

(** [FeatureType], bifurcation_graph/enum_and_styling.py lines 111-123; [deep_shell] is an alias of [shell]. *)
Inductive ftype := Unknown | Shell | Core | Covalent | CovalentMetallic | ShallowCovalentMetallic | Metallic | LonePair
  | MultiCentered | Electride | BareElectron.
Definition ftype_eqb (a b : ftype) : bool :=
  match a, b with
  | Unknown, Unknown | Shell, Shell | Core, Core | Covalent, Covalent | CovalentMetallic, CovalentMetallic
  | ShallowCovalentMetallic, ShallowCovalentMetallic | Metallic, Metallic | LonePair, LonePair
  | MultiCentered, MultiCentered | Electride, Electride | BareElectron, BareElectron => true
  | _, _ => false
  end.
(** [atomic_types], line 132. *)
Definition atomic (t : ftype) : bool := match t with Shell | Core | LonePair => true | _ => false end.

Record world := World {
  w_cage : nat -> bool;              (** [domain_subtype == irreducible_cage] *)
  w_dists : nat -> list Q;           (** [atom_dists]: one distance per atom *)
  w_basin_charges : nat -> Q;
  w_basin_volumes : nat -> Q;
  w_cnn : nat -> list Z;             (** CrystalNN neighbours *)
  w_bond : nat -> bool * (Z * Z);    (** [check_all_covalent] *)
  w_metal : list bool;               (** [specie.is_metal] per atom *)
  w_radii : list Q                   (** [atom_elf_radii] *)
}.
Record settings := Settings {
  s_core_dist : Q;                   (** [max_point_dist * 2] *)
  s_shell_ratio : Q;                 (** [shared_shell_ratio] *)
  s_combine : bool;                  (** [combine_shells] *)
  s_molecule_ratio : Q;              (** [covalent_molecule_ratio] *)
  s_min_charge : Q;                  (** [min_covalent_charge] *)
  s_elf : Q; s_depth : Q; s_charge : Q; s_volume : Q; s_beyond : Q;  (** [min_electride_...] *)
  s_ignore_low : bool                (** [ignore_low_pseudopotentials] *)
}.
Record lab := Lab {
  l_g : graph;
  l_type : nat -> ftype;             (** [feature_type] *)
  l_atoms : nat -> list Z;           (** [contained_atoms] *)
  l_coord : nat -> option (list Z);  (** [_coord_indices] *)
  l_sphere : nat -> nat;             (** [_nearest_atom_sphere] *)
  l_beyond : nat -> Q                (** [_dist_beyond_atom] *)
}.

Definition put {A} (f : nat -> A) (i : nat) (x : A) : nat -> A := fun j => if Nat.eqb i j then x else f j.
Definition set_type (st : lab) (i : nat) (t : ftype) : lab :=
  Lab (l_g st) (put (l_type st) i t) (l_atoms st) (l_coord st) (l_sphere st) (l_beyond st).
Definition set_coord (st : lab) (i : nat) (c : option (list Z)) : lab :=
  Lab (l_g st) (l_type st) (l_atoms st) (put (l_coord st) i c) (l_sphere st) (l_beyond st).
Definition set_graph (st : lab) (g : graph) : lab :=
  Lab g (l_type st) (l_atoms st) (l_coord st) (l_sphere st) (l_beyond st).

(** graph.py lines 126-150 and 178-191. *)
Definition irreducible_nodes (st : lab) : list nat := filter (fun i => negb (n_red (g_heap (l_g st) i))) (g_nodes (l_g st)).
Definition reducible_nodes (st : lab) : list nat := filter (fun i => n_red (g_heap (l_g st) i)) (g_nodes (l_g st)).
Definition unassigned_nodes (st : lab) : list nat :=
  filter (fun i => negb (n_red (g_heap (l_g st) i)) && ftype_eqb (l_type st i) Unknown) (g_nodes (l_g st)).

(** nodes.py lines 390-396. *)
Definition charge (w : world) (g : graph) (i : nat) : Q := qsum (map (w_basin_charges w) (n_basins (g_heap g i))).
Definition volume (w : world) (g : graph) (i : nat) : Q := qsum (map (w_basin_volumes w) (n_basins (g_heap g i))).
(** [atom_distance], [nearest_atom], nodes.py lines 424-430; np.min and np.argmin raise without atoms. *)
Definition nearest_atom (w : world) (i : nat) : Z := match argmin (w_dists w i) with Some a => Z.of_nat a | None => 0 end.

(** [ancestors], nodes.py lines 140-155. *)
Fixpoint ancestors (fuel : nat) (g : graph) (i : nat) : outcome (list nat) :=
  match fuel with
  | O => Running
  | S f => match n_parent (g_heap g i) with
           | None => Done []
           | Some p => obind (ancestors f g p) (fun t => Done (p :: t))
           end
  end.

(** [_mark_cores], lines 2149-2162. *)
Definition one_atom (st : lab) (i : nat) : bool := Nat.eqb (length (l_atoms st i)) 1.
Definition mark_core (w : world) (s : settings) (st : lab) (i : nat) : lab :=
  if w_cage w i then st
  else if negb (one_atom st i) then st
  else if Qle_bool (qmin_list (w_dists w i)) (s_core_dist s) then set_type st i Shell else st.
Definition mark_cores (w : world) (s : settings) (st : lab) : lab := fold_left (mark_core w s) (unassigned_nodes st) st.

(** [_mark_shells], lines 2164-2223.  First loop, lines 2182-2184. *)
Definition mark_single (st : lab) : lab :=
  fold_left (fun st i => if one_atom st i then set_type st i Shell else st) (unassigned_nodes st) st.
(** Second loop, lines 2191-2212: [node.depth] is cached; a total depth of zero is a ZeroDivisionError. *)
Definition shell_test (fuel : nat) (s : settings) (st : lab) (i : nat) : outcome (lab * bool) :=
  let g := l_g st in
  if n_infinite (g_heap g i) || negb (one_atom st i) then Done (st, false)
  else if existsb (one_atom st) (n_children (g_heap g i)) then Done (st, false)
  else
    let '(g1, depth) := get_depth g i in
    obind (deep_children fuel g1 i) (fun deep =>
    let max_elf := fold_left (fun m c => if Qltb m (n_max (g_heap g1 c)) then n_max (g_heap g1 c) else m) deep 0%Q in
    let total := (max_elf - n_min (g_heap g1 i))%Q in
    if Qeq_bool total 0 then Raised else Done (set_graph st g1, Qltb (s_shell_ratio s) (depth / total)%Q)).
Fixpoint shell_tests (fuel : nat) (s : settings) (st : lab) (l : list nat) : outcome (lab * list nat) :=
  match l with
  | [] => Done (st, [])
  | i :: t => obind (shell_test fuel s st i) (fun '(st1, b) =>
      obind (shell_tests fuel s st1 t) (fun '(st2, r) => Done (st2, if b then i :: r else r)))
  end.
(** Last loop, lines 2214-2223.  The new node takes over the contained atoms.  Without [combine_shells] the attribute
    [subtype], which nothing reads, is set. *)
Definition combine_shell (fuel : nat) (s : settings) (st : lab) (i : nat) : outcome lab :=
  if s_combine s then
    obind (make_irreducible fuel (l_g st) i) (fun '(g, n) =>
    Done (Lab g (put (l_type st) n Shell) (put (l_atoms st) n (l_atoms st i)) (put (l_coord st) n None) (l_sphere st) (l_beyond st)))
  else obind (deep_children fuel (l_g st) i) (fun _ => Done st).
Fixpoint combine_shells (fuel : nat) (s : settings) (st : lab) (l : list nat) : outcome lab :=
  match l with [] => Done st | i :: t => obind (combine_shell fuel s st i) (fun st1 => combine_shells fuel s st1 t) end.
Definition mark_shells (fuel : nat) (s : settings) (st : lab) : outcome lab :=
  let st1 := mark_single st in
  obind (shell_tests fuel s st1 (reducible_nodes st1)) (fun '(st2, l) => combine_shells fuel s st2 l).

(** [coord_indices], nodes.py lines 456-473. *)
Definition coord_indices (w : world) (st : lab) (i : nat) : lab * list Z :=
  match l_coord st i with
  | Some c => (st, c)
  | None => let c := if atomic (l_type st i) then [nearest_atom w i] else w_cnn w i in (set_coord st i (Some c), c)
  end.

(** [_mark_covalent], lines 2225-2321: the innermost ancestors containing one and both of the atoms, lines 2285-2296. *)
Definition has (st : lab) (i : nat) (a : Z) : bool := existsb (Z.eqb a) (l_atoms st i).
Definition first_max (st : lab) (test : nat -> bool) (l : list nat) : option Q :=
  option_map (fun i => n_max (g_heap (l_g st) i)) (find test l).
Definition metal (w : world) (a : Z) : outcome bool := oget (nth_error (w_metal w) (Z.to_nat a)).
Definition mark_bond (fuel : nat) (w : world) (s : settings) (st : lab) (i : nat) : outcome lab :=
  let '(in_tolerance, (a0, a1)) := w_bond w i in
  if negb in_tolerance then Done st
  else
    obind (ancestors fuel (l_g st) i) (fun anc =>
    match anc with
    | [] => Raised     (* node.ancestors[-1] *)
    | _ =>
      match first_max st (fun p => has st p a0 || has st p a1) anc, first_max st (fun p => has st p a0 && has st p a1) anc with
      | Some one, Some both =>
          if Qeq_bool one 0 then Raised
          else if negb (Qle_bool (s_molecule_ratio s) (both / one)) then Done st
          else
            let '(st1, c) := coord_indices w st i in
            if negb (Nat.eqb (length c) 2) then Done st1
            else
              obind (metal w a0) (fun m0 => obind (metal w a1) (fun m1 =>
              let big := Qltb (s_min_charge s) (charge w (l_g st1) i) in
              if m0 || m1 then
                Done (set_coord (set_type st1 i (if big then CovalentMetallic else ShallowCovalentMetallic)) i (Some [a0; a1]))
              else if big then Done (set_coord (set_type st1 i Covalent) i (Some [a0; a1]))
              else Done st1))
      | _, _ => Raised  (* None / None *)
      end
    end).
Fixpoint mark_bonds (fuel : nat) (w : world) (s : settings) (st : lab) (l : list nat) : outcome lab :=
  match l with [] => Done st | i :: t => obind (mark_bond fuel w s st i) (fun st1 => mark_bonds fuel w s st1 t) end.
Definition mark_covalent (fuel : nat) (w : world) (s : settings) (st : lab) : outcome lab :=
  mark_bonds fuel w s st (unassigned_nodes st).

(** [_mark_lonepairs], lines 2323-2439.  [known] is [assigned_nodes], a list of keys. *)
Definition is_known (known : list Z) (g : graph) (i : nat) : bool := existsb (Z.eqb (n_key (g_heap g i))) known.
Definition start_known (st : lab) : list Z :=
  map (fun i => n_key (g_heap (l_g st) i))
    (filter (fun i => negb (ftype_eqb (l_type st i) Unknown || ftype_eqb (l_type st i) ShallowCovalentMetallic)) (irreducible_nodes st)).
(** Lines 2387-2393 and 2412-2439. *)
Definition lone_ionic (w : world) (s : settings) (r : lab * list Z) (c : nat) : lab * list Z :=
  let '(st, known) := r in
  if n_red (g_heap (l_g st) c) || is_known known (l_g st) c then r
  else if Qltb (s_min_charge s) (charge w (l_g st) c)
  then (set_type st c LonePair, known ++ [n_key (g_heap (l_g st) c)]) else r.
Definition lone_bonded (w : world) (s : settings) (d : nat) (r : lab * list Z) (c : nat) : lab * list Z :=
  let '(st, known) := r in
  if n_red (g_heap (l_g st) c) || is_known known (l_g st) c then r
  else
    let '(st1, coord) := coord_indices w st c in
    if Nat.ltb 1 (length (filter (has st1 d) coord)) then (st1, known)
    else if Qltb (s_min_charge s) (charge w (l_g st1) c)
    then (set_coord (set_type st1 c LonePair) c None, known ++ [n_key (g_heap (l_g st1) c)]) else (st1, known).
Definition lone_step (fuel : nat) (w : world) (s : settings) (r : lab * list Z) (d : nat) : outcome (lab * list Z) :=
  let '(st, known) := r in
  let g := l_g st in
  if Nat.eqb (length (l_atoms st d)) 0 then Done r
  else
    obind (deep_children fuel g d) (fun deep =>
    let leaves := filter (fun c => negb (n_red (g_heap g c))) deep in
    let all_labeled := forallb (is_known known g) leaves in
    let none_labeled := forallb (fun c => negb (is_known known g c)) leaves in
    let some_covalent := existsb (fun c => ftype_eqb (l_type st c) Covalent || ftype_eqb (l_type st c) CovalentMetallic) leaves in
    let some_atom := existsb (fun c => atomic (l_type st c)) leaves in
    let keys := map (fun c => n_key (g_heap g c)) deep in
    if all_labeled then Done r
    else if one_atom st d && negb (n_infinite (g_heap g d)) then
      if none_labeled then Done (fold_left (fun st c => set_type st c Shell) deep st, known ++ keys)
      else if some_atom && negb some_covalent then Done (fold_left (lone_ionic w s) deep r)
      else Done r
    else if none_labeled then Done (st, known ++ keys)
    else if negb some_covalent then Done r
    else Done (fold_left (lone_bonded w s d) deep r)).
Fixpoint lone_steps (fuel : nat) (w : world) (s : settings) (r : lab * list Z) (l : list nat) : outcome (lab * list Z) :=
  match l with [] => Done r | d :: t => obind (lone_step fuel w s r d) (fun r1 => lone_steps fuel w s r1 t) end.
Definition mark_lonepairs (fuel : nat) (argsort : list Q -> list nat) (w : world) (s : settings) (st : lab) : outcome lab :=
  obind (lone_steps fuel w s (st, start_known st) (rev (sorted_reducible argsort (l_g st)))) (fun r => Done (fst r)).

(** [_mark_metallic_or_bare], lines 2448-2500.  Lines 2461-2469: np.min raises without atoms. *)
Definition beyond_list (w : world) (i : nat) : list Q := map (fun p => fst p - snd p)%Q (combine (w_dists w i) (w_radii w)).
Definition measure (w : world) (st : lab) (i : nat) : outcome lab :=
  let l := beyond_list w i in
  obind (oget (argmin l)) (fun a =>
  Done (Lab (l_g st) (l_type st) (l_atoms st) (l_coord st) (put (l_sphere st) i a) (put (l_beyond st) i (qmin_list l)))).
Fixpoint measures (w : world) (st : lab) (l : list nat) : outcome lab :=
  match l with [] => Done st | i :: t => obind (measure w st i) (fun st1 => measures w st1 t) end.
(** [depth_to_infinite], nodes.py lines 165-174: the loop variable is unbound without ancestors. *)
Definition depth_to_infinite (fuel : nat) (g : graph) (i : nat) : outcome Q :=
  if n_infinite (g_heap g i) then Done 0%Q
  else obind (ancestors fuel g i) (fun anc =>
    let a := match find (fun a => n_infinite (g_heap g a)) anc with
             | Some a => Some a
             | None => match rev anc with [] => None | a :: _ => Some a end
             end in
    obind (oget a) (fun a => Done (n_max (g_heap g i) - n_max (g_heap g a))%Q)).
Definition mark_bare (fuel : nat) (w : world) (s : settings) (st : lab) (i : nat) : outcome lab :=
  let g := l_g st in
  if negb (ftype_eqb (l_type st i) Metallic || ftype_eqb (l_type st i) BareElectron || ftype_eqb (l_type st i) Unknown) then Done st
  else obind (depth_to_infinite fuel g i) (fun depth =>
    Done (set_type st i
      (if Qltb (s_elf s) (n_max (g_heap g i)) && Qltb (s_depth s) depth && Qltb (s_charge s) (charge w g i) &&
          Qltb (s_volume s) (volume w g i) && Qltb (s_beyond s) (l_beyond st i)
       then BareElectron else MultiCentered))).
Fixpoint mark_bares (fuel : nat) (w : world) (s : settings) (st : lab) (l : list nat) : outcome lab :=
  match l with [] => Done st | i :: t => obind (mark_bare fuel w s st i) (fun st1 => mark_bares fuel w s st1 t) end.
Definition mark_metallic_or_bare (fuel : nat) (w : world) (s : settings) (st : lab) : outcome lab :=
  obind (measures w st (irreducible_nodes st)) (fun st1 => mark_bares fuel w s st1 (irreducible_nodes st1)).

(** [_get_bifurcation_graph], lines 2036-2133, after the construction of the graph and without the surface distances. *)
Definition label_features (fuel : nat) (argsort : list Q -> list nat) (w : world) (s : settings) (st : lab) : outcome lab :=
  obind (mark_shells fuel s (mark_cores w s st)) (fun st1 =>
  obind (mark_covalent fuel w s st1) (fun st2 =>
  obind (mark_lonepairs fuel argsort w s st2) (fun st3 =>
  obind (mark_metallic_or_bare fuel w s st3) (fun st4 =>
  let found := map (nearest_atom w) (filter (fun i => atomic (l_type st4 i)) (irreducible_nodes st4)) in
  if negb (Nat.eqb (length (np_unique found)) (length (w_metal w))) && negb (s_ignore_low s) then Raised
  else match unassigned_nodes st4 with [] => Done st4 | _ => Raised end)))).
