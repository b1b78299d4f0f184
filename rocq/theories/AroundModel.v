(** Which domains surround an atom, core/labelers/bifurcation_graph/graph_numba/surrounded_atoms.py lines 66-231.

    [get_connected_groups] (the voids) is in CycleModel.v; here [void] gives the position in [roots] of the root of a voxel.
    Basin labels are valid indices into [basin_domain_map].  The increments of line 95, which can get lost when threads
    meet, are done one after the other in any order. *)
From Verif Require Import Base GridModel NeighModel RootsModel UnionModel.
Local Open Scope Z_scope.
Notation pos := (Z * Z * Z)%type.

Section Contacts.
Variables (nx ny nz : Z) (solid vac : arr3 bool) (labels : arr3 Z) (basin_domain_map : list Z) (void : pos -> nat) (neighbors : list pos).
Definition at3 {A} (a : arr3 A) (p : pos) : A := let '(i, j, k) := p in a i j k.
(** Lines 73-97 at one voxel: the entries increased. *)
Definition hits (p : pos) : list (nat * Z) :=
  let '(i, j, k) := p in
  if negb (at3 solid p) || at3 vac p then []
  else flat_map (fun '(di, dj, dk) =>
    let u := wrap_point (i + di) (j + dj) (k + dk) nx ny nz in
    if at3 solid u then []
    else match np_get basin_domain_map (at3 labels u) with Some d => [(void p, d)] | None => [] end) neighbors.
Definition bump (counts : list (list Z)) (h : nat * Z) : list (list Z) :=
  let row := nth (fst h) counts [] in
  match np_get row (snd h) with
  | Some c => match np_set row (snd h) (c + 1) with Some row' => upd counts (fst h) row' | None => counts end
  | None => counts
  end.
(** Lines 66-97. *)
Definition connection_counts (num_voids num_domains : nat) (order : list pos) : list (list Z) :=
  fold_left bump (flat_map hits order) (repeat (repeat 0 num_domains) num_voids).
End Contacts.

(** [np.argmax]: the first of the largest. *)
Fixpoint argmax_from (l : list Z) (i best : nat) (m : Z) : nat :=
  match l with [] => best | x :: t => if m <? x then argmax_from t (S i) i x else argmax_from t (S i) best m end.
Definition np_argmax (l : list Z) : option nat := match l with [] => None | x :: t => Some (argmax_from t 1 0 x) end.

Section Walk.
Variables (counts : list (list Z)) (all_domains : list nat) (domain_dims void_dims : list Z).
Definition row (w : nat) : list Z := nth w counts [].
Definition column (g : nat) : list Z := map (fun r => nth g r 0) counts.
(** Lines 155-183: [count] iterations are left before the exception. *)
Fixpoint walk (count : nat) (is_void : bool) (group : nat) (found : list nat) : outcome (list nat) :=
  match count with
  | O => Raised
  | S count =>
      if is_void then
        if 0 <? nth group void_dims 0 then Done found
        else obind (oget (np_argmax (row group))) (fun g => walk count false g found)
      else
        obind (oget (nth_error all_domains group)) (fun d =>
        let found := found ++ [d] in
        if 0 <? nth d domain_dims 0 then Done found
        else obind (oget (np_argmax (column group))) (fun w => walk count true w found))
  end.
(** [find_atom_domains], lines 113-184, from the void or domain of the atom. *)
Definition find_atom_domains (is_void : bool) (group : nat) : outcome (list nat) := walk 101 is_void group [].
(** Lines 135-143: the void or the domain the atom sits in. *)
Definition atom_start (solid : arr3 bool) (labels : arr3 Z) (basin_domain_map : list Z) (void : pos -> nat) (p : pos) : outcome (bool * nat) :=
  if at3 solid p then Done (true, void p) else obind (oget (np_get basin_domain_map (at3 labels p))) (fun d => Done (false, Z.to_nat d)).
(** [find_all_atom_domains], lines 187-231: every iteration works on the list of its own atom. *)
Fixpoint find_all_atom_domains solid labels basin_domain_map void (atoms : list pos) : outcome (list (list nat)) :=
  match atoms with
  | [] => Done []
  | p :: t =>
      obind (atom_start solid labels basin_domain_map void p) (fun '(b, g) =>
      obind (find_atom_domains b g) (fun l =>
      obind (find_all_atom_domains solid labels basin_domain_map void t) (fun r => Done (l :: r))))
  end.
End Walk.
