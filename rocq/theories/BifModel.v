(** Bifurcation domains,
    core/labelers/bifurcation_graph/graph_numba/domain_bifurcations.py
    ([find_domain_bifurcations]).

    A connection [(i, j, v)] says that basins [i] and [j] touch at value [v]; the
    caller (graph.py lines 416-421) adds [(i, i, maximum of i)] for every basin.  The
    periodic dimensionality of the domain with lowest basin [b] at value [v] (computed
    from the grid by [get_connected_groups]/[get_domain_dimensionality], lines
    318-358) is an arbitrary function [dimf v b]. *)
From Coq Require Import QArith.
From Verif Require Import Base GridModel NeighModel RootsModel UnionModel.
Local Open Scope Z_scope.

Notation conn := (nat * nat * Q)%type.

(** [np.flip(np.unique(values))], line 167: distinct values, largest first. *)
Fixpoint ins_desc (x : Q) (l : list Q) : list Q :=
  match l with
  | [] => [x]
  | y :: t => if Qeq_bool x y then l else if Qltb y x then x :: l else y :: ins_desc x t
  end.
Definition values_desc (vs : list Q) : list Q := fold_right ins_desc [] vs.

(** Lines 225-228: the connections appearing at [value]. *)
Definition new_conns (cs : list conn) (value previous : Q) : list conn :=
  filter (fun c => Qle_bool value (snd c) && Qltb (snd c) previous)%bool cs.

(** Lines 236-238. *)
Definition assign_self (p : list Z) (b : nat) : list Z :=
  if nth b p (-1) =? -1 then upd p b (Z.of_nat b) else p.

(** Lines 235-249: one connection. *)
Definition connect1 (fuel : nat) (p : list Z) (i j : nat) : outcome (list Z) :=
  let p := assign_self (assign_self p i) j in
  obind (find_root fuel p (Z.of_nat i)) (fun '(p1, lower_root) =>
  obind (find_root fuel p1 (Z.of_nat j)) (fun '(p2, upper_root) =>
  if lower_root =? upper_root then Done p2
  else union fuel p2 (Z.of_nat i) (Z.of_nat j))).

Fixpoint connect (fuel : nat) (cs : list conn) (p : list Z) : outcome (list Z) :=
  match cs with
  | [] => Done p
  | (i, j, _) :: t => obind (connect1 fuel p i j) (connect fuel t)
  end.

(** Lines 262-280: the groups, in the order of their lowest basin.  [dgi] is
    [domain_group_indices]; its entries are valid group numbers or -1. *)
Definition group_step (p : list Z) (st : list Z * list (list nat)) (b : nat)
    : list Z * list (list nat) :=
  let '(dgi, groups) := st in
  let g := nth b p (-1) in
  if g =? -1 then st
  else
    let idx := nth (Z.to_nat g) dgi (-1) in
    if idx =? -1 then (upd dgi (Z.to_nat g) (Z.of_nat (length groups)), groups ++ [[b]])
    else (dgi, upd groups (Z.to_nat idx) (nth (Z.to_nat idx) groups [] ++ [b])).
Definition find_groups (p : list Z) : list (list nat) :=
  snd (fold_left (group_step p) (seq 0 (length p)) (repeat (-1) (length p), [])).

(** A domain at a value: its basins, its id and its dimensionality.  The code keeps
    three parallel lists ([domain_groups], [domain_ids], [new_dimensionalities]). *)
Notation dom := (list nat * nat * Z)%type.
Definition d_group (t : dom) : list nat := fst (fst t).
Definition d_id (t : dom) : nat := snd (fst t).
Definition d_dim (t : dom) : Z := snd t.

Definition same_group (g h : list nat) : bool :=
  if list_eq_dec Nat.eq_dec g h then true else false.

(** Lines 292-314: ids of the groups, from the previous level where the group existed,
    otherwise the next unused id.  Returns the ids, the counter and [same_groups]. *)
Fixpoint assign_ids (groups : list (list nat)) (prev : list dom) (unique : nat)
    : list nat * nat * bool :=
  match groups with
  | [] => ([], unique, true)
  | g :: t =>
      match find (fun d => same_group (d_group d) g) prev with
      | Some d => let '(ids, u, same) := assign_ids t prev unique in (d_id d :: ids, u, same)
      | None => let '(ids, u, same) := assign_ids t prev (S unique) in (unique :: ids, u, false)
      end
  end.

(** Lines 340-367: a domain whose dimensionality changed gets a new id. *)
Fixpoint assign_dims (dimf : nat -> Z) (gis : list (list nat * nat)) (prev : list dom)
    (unique : nat) : list dom * nat * bool :=
  match gis with
  | [] => ([], unique, true)
  | (g, id) :: t =>
      let dim := dimf (hd 0%nat g) in
      if existsb (fun d => Nat.eqb (d_id d) id && negb (d_dim d =? dim))%bool prev
      then let '(ds, u, same) := assign_dims dimf t prev (S unique) in
           ((g, unique, dim) :: ds, u, false)
      else let '(ds, u, same) := assign_dims dimf t prev unique in ((g, id, dim) :: ds, u, same)
  end.

(** One level, lines 221-374: new parents, domains, counter and whether to record. *)
Record lstate := LS { ls_p : list Z; ls_doms : list dom; ls_unique : nat }.

Definition level_step (fuel : nat) (order : list nat) (dimf : Q -> nat -> Z) (cs : list conn)
    (value previous : Q) (st : lstate) : outcome (lstate * bool) :=
  obind (connect fuel (new_conns cs value previous) (ls_p st)) (fun p1 =>
  obind (compress_roots fuel order p1) (fun p2 =>
  let groups := find_groups p2 in
  let '(ids, u1, same1) := assign_ids groups (ls_doms st) (ls_unique st) in
  let '(ds, u2, same2) := assign_dims (dimf value) (combine groups ids) (ls_doms st) u1 in
  Done (LS p2 ds u2, negb (same1 && same2)))).

(** Lines 381-384. *)
Definition complete (n : nat) (ds : list dom) : bool :=
  match ds with
  | [d] => (Nat.eqb (length (d_group d)) n && (d_dim d =? 3))%bool
  | _ => false
  end.

Record level := Lv { lv_value : Q; lv_doms : list dom }.

(** The loop, lines 219-384: recorded levels, highest value first, and the number of
    ids used. *)
Fixpoint run_levels (fuel : nat) (order : list nat) (dimf : Q -> nat -> Z) (cs : list conn)
    (n : nat) (values : list Q) (previous : Q) (st : lstate) : outcome (list level * nat) :=
  match values with
  | [] => Done ([], ls_unique st)
  | v :: vs =>
      obind (level_step fuel order dimf cs v previous st) (fun '(st', changed) =>
      let here := if changed then [Lv v (ls_doms st')] else [] in
      if complete n (ls_doms st') then Done (here, ls_unique st')
      else obind (run_levels fuel order dimf cs n vs v st') (fun '(rest, u) =>
           Done (here ++ rest, u)))
  end.

Definition huge : Q := inject_Z (10 ^ 12).
Definition domain_levels (fuel : nat) (order : list nat) (dimf : Q -> nat -> Z)
    (cs : list conn) (n : nat) : outcome (list level * nat) :=
  run_levels fuel order dimf cs n (values_desc (map snd cs)) huge (LS (repeat (-1) n) [] 0).

(** Lines 389-455: domains listed from low to high value.  [b_max = None] is an entry
    of the [np.empty] array that was never written. *)
Record bdom := BD { b_basins : list nat; b_min : Q; b_max : option Q; b_dim : Z; b_parent : Z }.

Definition set_max (v : Q) (d : bdom) : bdom :=
  BD (b_basins d) (b_min d) (Some v) (b_dim d) (b_parent d).

Definition contains (big small : list nat) : bool :=
  forallb (fun b => existsb (Nat.eqb b) big) small.

(** Lines 435-443: the most recent domain containing [basins]. *)
Fixpoint find_parent (basins : list nat) (rev_recs : list bdom) : option nat :=
  match rev_recs with
  | [] => None
  | d :: t => if contains (b_basins d) basins then Some (length t) else find_parent basins t
  end.

(** Lines 423-455: one new domain.  Recording more than [unique] domains is an
    IndexError; a missing parent leaves [parent_idx] unbound. *)
Definition add_domain (maxref : nat -> Q) (unique : nat) (value : Q) (t : dom) (recs : list bdom)
    : outcome (list bdom) :=
  if (unique <=? length recs)%nat then Raised
  else
    match find_parent (d_group t) (rev recs) with
    | None => Raised
    | Some p =>
        let recs := upd recs p (set_max value (nth p recs (BD [] 0 None 0 (-1)))) in
        let mx := match d_group t with [b] => Some (maxref b) | _ => None end in
        Done (recs ++ [BD (d_group t) value mx (d_dim t) (Z.of_nat p)])
    end.

Fixpoint add_level (maxref : nat -> Q) (unique : nat) (value : Q) (old : list dom)
    (new : list dom) (recs : list bdom) : outcome (list bdom) :=
  match new with
  | [] => Done recs
  | t :: rest =>
      if existsb (fun d => Nat.eqb (d_id d) (d_id t)) old
      then add_level maxref unique value old rest recs
      else obind (add_domain maxref unique value t recs) (add_level maxref unique value old rest)
  end.

Fixpoint add_levels (maxref : nat -> Q) (unique : nat) (low : level) (rest : list level)
    (recs : list bdom) : outcome (list bdom) :=
  match rest with
  | [] => Done recs
  | l :: t =>
      obind (add_level maxref unique (lv_value low) (lv_doms low) (lv_doms l) recs)
        (add_levels maxref unique l t)
  end.

Definition roots_of (min_data : Q) (l : level) : list bdom :=
  map (fun t => BD (d_group t) min_data None (d_dim t) (-1)) (lv_doms l).

Definition organise (maxref : nat -> Q) (min_data : Q) (unique : nat) (levels : list level)
    : outcome (list bdom) :=
  match rev levels with
  | [] => Raised
  | l :: t => add_levels maxref unique l t (roots_of min_data l)
  end.

(** [find_domain_bifurcations], lines 146-462. *)
Definition find_domain_bifurcations (fuel : nat) (order : list nat) (dimf : Q -> nat -> Z)
    (maxref : nat -> Q) (min_data : Q) (cs : list conn) (n : nat) : outcome (list bdom) :=
  obind (domain_levels fuel order dimf cs n) (fun '(levels, unique) =>
  organise maxref min_data unique levels).
