(** Splitting of domains where the atoms they surround change,
    core/labelers/bifurcation_graph/graph_numba/surrounded_atoms.py lines 235-465
    ([get_domains_surrounding_atoms]).

    The lists of parallel arrays are lists of records.  The domains that surround each atom at each value, computed
    by [get_connected_voids] and [find_all_atom_domains] (lines 318-363), are given: [steps] pairs every value with one list
    of domains per atom, whatever these are. *)
From Coq Require Import QArith.
From Verif Require Import Base GridModel NeighModel RootsModel UnionModel.
Local Open Scope Z_scope.

Record domain := Dm { m_basins : list nat; m_min : Q; m_max : Q; m_dim : Z; m_parent : Z }.
Definition dm0 : domain := Dm [] 0 0 0 (-1).
(** The new lists with [all_domain_atoms], and [new_domain_map]. *)
Notation news := (list (domain * list nat)).
Notation sstate := (news * list Z)%type.
Notation step := (Q * list (list nat))%type.

(** Lines 299-316. *)
Definition alive (v : Q) (D : domain) : bool := Qle_bool (m_min D) v && Qltb v (m_max D).
Definition current (doms : list domain) (v : Q) : list nat := filter (fun d => alive v (nth d doms dm0)) (seq 0 (length doms)).
(** Lines 368-383: the atoms of one of the current domains. *)
Definition atoms_of (around : list (list nat)) (d : nat) : list nat :=
  flat_map (fun '(a, l) => map (fun _ => a) (filter (Nat.eqb d) l)) (combine (seq 0 (length around)) around).

Definition with_max (v : Q) (D : domain) : domain := Dm (m_basins D) (m_min D) v (m_dim D) (m_parent D).
(** [new_domain_max_values[i] = v]. *)
Definition cut (n : news) (i : Z) (v : Q) : option news :=
  match np_get n i with Some (D, a) => np_set n i (with_max v D, a) | None => None end.
(** Lines 399-404 and 417-427, and 440-456: a domain with its old parent. *)
Definition keep (doms : list domain) (v : Q) (atoms : list nat) (st : sstate) (d : nat) : outcome sstate :=
  let '(n, m) := st in
  let D := nth d doms dm0 in
  let m' := upd m d (Z.of_nat (length n)) in
  obind (if m_parent D =? -1 then Done (-1) else oget (np_get m' (m_parent D))) (fun p =>
  Done (n ++ [(Dm (m_basins D) v (m_max D) (m_dim D) p, atoms)], m')).
(** Lines 386-427, for one of the current domains. *)
Definition append (doms : list domain) (v : Q) (around : list (list nat)) (prev : list (nat * list nat)) (st : sstate) (d : nat) : outcome sstate :=
  let '(n, m) := st in
  let D := nth d doms dm0 in
  let atoms := atoms_of around d in
  if Qeq_bool (m_min D) v then keep doms v atoms st d
  else
    match find (fun p => Nat.eqb (fst p) d) prev with
    | Some (_, old) =>
        if Nat.eqb (length old) (length atoms) then Done st
        else
          let i := nth d m (-1) in
          obind (oget (cut (n ++ [(Dm (m_basins D) v (m_max D) (m_dim D) i, atoms)]) i v)) (fun n' =>
          Done (n', upd m d (Z.of_nat (length n))))
    | None => Done st
    end.
Fixpoint ofold {S} (f : S -> nat -> outcome S) (l : list nat) (st : S) : outcome S :=
  match l with [] => Done st | d :: t => obind (f st d) (fun st1 => ofold f t st1) end.
(** Lines 291-432. *)
Fixpoint split_loop (doms : list domain) (steps : list step) (prev : list (nat * list nat)) (st : sstate) : outcome sstate :=
  match steps with
  | [] => Done st
  | (v, around) :: t =>
      let cur := current doms v in
      obind (ofold (append doms v around prev) cur st) (fun st1 =>
      if forallb (fun l : list nat => match l with [] => true | _ => false end) around then Done st1
      else split_loop doms t (map (fun d => (d, atoms_of around d)) cur) st1)
  end.
(** Lines 434-456. *)
Definition fill (doms : list domain) (st : sstate) (d : nat) : outcome sstate :=
  if nth d (snd st) (-1) =? -1 then keep doms (m_min (nth d doms dm0)) [] st d else Done st.
Definition get_domains_surrounding_atoms (doms : list domain) (steps : list step) : outcome news :=
  obind (split_loop doms steps [] ([], repeat (-1) (length doms))) (fun st =>
  obind (ofold (fill doms) (seq 0 (length doms)) st) (fun st1 => Done (fst st1))).
