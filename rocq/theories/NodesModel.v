(** Nodes of the bifurcation graph and the operations that edit it,
    core/labelers/bifurcation_graph/nodes.py and graph.py.

    A node object is a reference (a natural number) into a heap; [is] compares
    references.  Fields that no operation of this file reads or changes
    (dimensionality, contained atoms, subtypes, cached feature data) are left out;
    [n_depth] is the cached property [depth]. *)
From Coq Require Import QArith.
From Verif Require Import Base RootsModel UnionModel LabelsModel.
Local Open Scope Z_scope.

Record node := Node {
  n_key : Z;
  n_red : bool;              (** [is_reducible] *)
  n_basins : list nat;
  n_infinite : bool;         (** [is_infinite]: dimensionality > 0 *)
  n_min : Q;
  n_max : Q;
  n_depth : option Q;
  n_parent : option nat;
  n_children : list nat
}.

Record graph := Graph {
  g_heap : nat -> node;
  g_next : nat;                     (** references from here on are unused *)
  g_nodes : list nat;               (** [_nodes] *)
  g_roots : list nat;               (** [_root_nodes] *)
  g_keys : list (Z * nat)           (** [_node_keys] *)
}.

Definition dead : node := Node 0 false [] false 0 0 None None [].
Definition empty_graph : graph := Graph (fun _ => dead) 0 [] [] [].

Definition hset (h : nat -> node) (i : nat) (n : node) : nat -> node :=
  fun j => if Nat.eqb i j then n else h j.

Definition set_parent_f (p : option nat) (n : node) : node :=
  Node (n_key n) (n_red n) (n_basins n) (n_infinite n) (n_min n) (n_max n) (n_depth n) p (n_children n).
Definition set_children (c : list nat) (n : node) : node :=
  Node (n_key n) (n_red n) (n_basins n) (n_infinite n) (n_min n) (n_max n) (n_depth n) (n_parent n) c.
Definition set_maxv (m : Q) (n : node) : node :=
  Node (n_key n) (n_red n) (n_basins n) (n_infinite n) (n_min n) m (n_depth n) (n_parent n) (n_children n).
Definition set_depth (d : Q) (n : node) : node :=
  Node (n_key n) (n_red n) (n_basins n) (n_infinite n) (n_min n) (n_max n) (Some d) (n_parent n) (n_children n).

Definition on_node (g : graph) (i : nat) (f : node -> node) : graph :=
  Graph (hset (g_heap g) i (f (g_heap g i))) (g_next g) (g_nodes g) (g_roots g) (g_keys g).
Definition with_roots (g : graph) (r : list nat) : graph :=
  Graph (g_heap g) (g_next g) (g_nodes g) r (g_keys g).

(** [[i for i in l if i is not self]] *)
Definition without (x : nat) (l : list nat) : list nat := filter (fun i => negb (Nat.eqb i x)) l.

(** Python dictionaries. *)
Definition dict_has (k : Z) (d : list (Z * nat)) : bool := existsb (fun e => fst e =? k) d.
Definition dict_set (d : list (Z * nat)) (k : Z) (v : nat) : list (Z * nat) :=
  if dict_has k d then map (fun e => if fst e =? k then (k, v) else e) d else d ++ [(k, v)].
Definition dict_del (d : list (Z * nat)) (k : Z) : list (Z * nat) :=
  filter (fun e => negb (fst e =? k)) d.

(** [NodeBase.__init__], nodes.py lines 34-78 (and 237-239: reducible nodes start without
    children).  A parent that is irreducible has no [_children]: AttributeError. *)
Definition new_key (g : graph) : Z :=
  match g_nodes g with
  | [] => 0
  | _ => match map fst (g_keys g) with [] => 0 | k :: t => fold_left Z.max t k + 1 end
  end.

Definition add_node (g : graph) (red : bool) (basins : list nat) (infinite : bool) (mn mx : Q)
    (key : option Z) (parent : option nat) : outcome (graph * nat) :=
  let id := g_next g in
  obind (match parent with
         | None => Done (with_roots g (g_roots g ++ [id]))
         | Some p => if n_red (g_heap g p)
                     then Done (on_node g p (fun n => set_children (n_children n ++ [id]) n))
                     else Raised
         end) (fun g1 =>
  let k := match key with Some k => k | None => new_key g1 end in
  Done (Graph (hset (g_heap g1) id (Node k red basins infinite mn mx None parent [])) (S id)
          (g_nodes g1 ++ [id]) (g_roots g1) (dict_set (g_keys g1) k id), id)).

(** The setter of [parent], lines 120-131. *)
Definition set_parent (g : graph) (c new_parent : nat) : outcome graph :=
  match n_parent (g_heap g c) with
  | None => Raised
  | Some old =>
      if negb (n_red (g_heap g old)) then Raised
      else
        let g1 := on_node g old (fun n => set_children (without c (n_children n)) n) in
        let g2 := on_node g1 c (set_parent_f (Some new_parent)) in
        if negb (n_red (g_heap g2 new_parent)) then Raised
        else Done (on_node g2 new_parent (fun n => set_children (n_children n ++ [c]) n))
  end.

Fixpoint set_parents (g : graph) (cs : list nat) (new_parent : nat) : outcome graph :=
  match cs with
  | [] => Done g
  | c :: t => obind (set_parent g c new_parent) (fun g1 => set_parents g1 t new_parent)
  end.

(** Lines 285-288 and 527-530: the node leaves the graph. *)
Definition delete (g : graph) (i : nat) : outcome graph :=
  let k := n_key (g_heap g i) in
  if dict_has k (g_keys g)
  then Done (Graph (g_heap g) (g_next g) (without i (g_nodes g)) (g_roots g) (dict_del (g_keys g) k))
  else Raised.

(** [ReducibleNode.remove], lines 262-288. *)
Definition remove_reducible (g : graph) (i : nat) : outcome graph :=
  let self := g_heap g i in
  obind (match n_parent self with
    | None =>
        let g1 := with_roots g (without i (g_roots g)) in
        Done (fold_left (fun g c =>
                on_node (with_roots g (g_roots g ++ [c])) c (set_parent_f None))
              (n_children self) g1)
    | Some p =>
        obind (set_parents g (n_children self) p) (fun g1 =>
        let g2 := on_node g1 p (fun n => set_children (without i (n_children n)) n) in
        let mn := fold_left (fun m c => if Qltb (n_min (g_heap g2 c)) m then n_min (g_heap g2 c) else m)
                    (n_children (g_heap g2 p)) (n_max (g_heap g2 i)) in
        Done (on_node g2 p (set_maxv mn)))
    end) (fun g3 => delete g3 i).

(** [IrreducibleNode.remove], lines 524-530. *)
Definition remove_irreducible (g : graph) (i : nat) : outcome graph :=
  match n_parent (g_heap g i) with
  | None => Raised
  | Some p =>
      if negb (n_red (g_heap g p)) then Raised
      else delete (on_node g p (fun n => set_children (without i (n_children n)) n)) i
  end.

Definition remove (g : graph) (i : nat) : outcome graph :=
  if n_red (g_heap g i) then remove_reducible g i else remove_irreducible g i.

(** [deep_children], lines 245-260: level by level. *)
Definition next_level (g : graph) (l : list nat) : list nat :=
  flat_map (fun c => if n_red (g_heap g c) then n_children (g_heap g c) else []) l.
Fixpoint deep_loop (g : graph) (fuel : nat) (current : list nat) : outcome (list nat) :=
  match fuel with
  | O => Running
  | S f => match next_level g current with
           | [] => Done current
           | nxt => obind (deep_loop g f nxt) (fun rest => Done (current ++ rest))
           end
  end.
Definition deep_children (fuel : nat) (g : graph) (i : nat) : outcome (list nat) :=
  deep_loop g fuel (n_children (g_heap g i)).

Fixpoint remove_all (g : graph) (l : list nat) : outcome graph :=
  match l with
  | [] => Done g
  | i :: t => obind (remove g i) (fun g1 => remove_all g1 t)
  end.

(** [make_irreducible], lines 290-328 (without the geometric subtype). *)
Definition make_irreducible (fuel : nat) (g : graph) (i : nat) : outcome (graph * nat) :=
  if negb (n_red (g_heap g i)) then Raised
  else
  obind (deep_children fuel g i) (fun deep =>
  let mx := fold_left (fun m c => if n_red (g_heap g c) then m
                                  else if Qltb m (n_max (g_heap g c)) then n_max (g_heap g c) else m)
              deep low_start in
  obind (remove_all g (rev deep)) (fun g1 =>
  obind (remove g1 i) (fun g2 =>
  let self := g_heap g2 i in
  add_node g2 false (n_basins self) (n_infinite self) (n_min self) mx (Some (n_key self)) (n_parent self)))).

(** Cached property [depth], lines 161-163. *)
Definition get_depth (g : graph) (i : nat) : graph * Q :=
  let n := g_heap g i in
  match n_depth n with
  | Some d => (g, d)
  | None => let d := (n_max n - n_min n)%Q in (on_node g i (set_depth d), d)
  end.

(** [_remove_shallow_reducible_nodes], graph.py lines 612-634: [order] is
    [sorted_reducible_nodes].  Dividing by a zero depth raises ZeroDivisionError. *)
Definition shallow_step (cutoff : Q) (g : graph) (i : nat) : outcome graph :=
  match n_parent (g_heap g i) with
  | None => Raised
  | Some p =>
      let '(g1, d) := get_depth g i in
      let '(g2, dp) := get_depth g1 p in
      if Qeq_bool dp 0 then Raised
      else if Qltb cutoff (d / dp) then Done g2 else remove g2 i
  end.
Fixpoint shallow_loop (cutoff : Q) (g : graph) (l : list nat) : outcome graph :=
  match l with
  | [] => Done g
  | i :: t => obind (shallow_step cutoff g i) (fun g1 => shallow_loop cutoff g1 t)
  end.

(** [sorted_reducible_nodes], graph.py lines 161-175. *)
Definition sorted_reducible (argsort : list Q -> list nat) (g : graph) : list nat :=
  let l := filter (fun i => n_red (g_heap g i)) (g_nodes g) in
  map (fun j => nth j l 0%nat) (argsort (map (fun i => n_min (g_heap g i)) l)).

Definition remove_shallow (argsort : list Q -> list nat) (cutoff : Q) (g : graph) : outcome graph :=
  shallow_loop cutoff g (tl (sorted_reducible argsort g)).

(** [_combine_shallow_irreducible_nodes], graph.py lines 636-676. *)
Fixpoint all_shallow (cutoff depth : Q) (g : graph) (l : list nat) : outcome (graph * bool) :=
  match l with
  | [] => Done (g, true)
  | c :: t =>
      if n_red (g_heap g c) then all_shallow cutoff depth g t
      else
        let '(g1, d) := get_depth g c in
        if Qeq_bool depth 0 then Raised
        else if Qltb cutoff (d / depth) then Done (g1, false) else all_shallow cutoff depth g1 t
  end.
Definition combine_step (fuel : nat) (cutoff : Q) (g : graph) (i : nat) : outcome graph :=
  if n_infinite (g_heap g i) then Done g
  else
    let '(g1, depth) := get_depth g i in
    obind (deep_children fuel g1 i) (fun deep =>
    obind (all_shallow cutoff depth g1 deep) (fun '(g2, shallow) =>
    if shallow then obind (make_irreducible fuel g2 i) (fun r => Done (fst r)) else Done g2)).
Fixpoint combine_loop (fuel : nat) (cutoff : Q) (g : graph) (l : list nat) : outcome graph :=
  match l with
  | [] => Done g
  | i :: t => obind (combine_step fuel cutoff g i) (fun g1 => combine_loop fuel cutoff g1 t)
  end.
Definition combine_shallow (argsort : list Q -> list nat) (fuel : nat) (cutoff : Q) (g : graph)
    : outcome graph :=
  combine_loop fuel cutoff g (rev (sorted_reducible argsort g)).
