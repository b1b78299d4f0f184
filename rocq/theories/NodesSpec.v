(** What a well formed bifurcation graph is, in terms of what a user sees: the list of
    nodes, their keys, kinds, basins, parents and children, and the list of roots. *)
From Coq Require Import QArith.
From Verif Require Import Base NodesModel.
Local Open Scope Z_scope.

Definition key_of g i := n_key (g_heap g i).
Definition reducible g i : Prop := n_red (g_heap g i) = true.
Definition basins_of g i := n_basins (g_heap g i).
Definition parent_of g i := n_parent (g_heap g i).
Definition children_of g i := n_children (g_heap g i).

(** [a] stands before [b] in [l]. *)
Definition before (l : list nat) (a b : nat) : Prop := exists l1 l2, l = l1 ++ b :: l2 /\ In a l1.

Record well_formed (g : graph) : Prop := {
  wf_nodup : NoDup (g_nodes g);
  wf_live : forall i, In i (g_nodes g) -> (i < g_next g)%nat;
  wf_keys_nodup : NoDup (map fst (g_keys g));
  wf_keys : forall k i, In (k, i) (g_keys g) <-> In i (g_nodes g) /\ key_of g i = k;
  wf_parent : forall i p, In i (g_nodes g) -> parent_of g i = Some p ->
    In p (g_nodes g) /\ reducible g p /\ before (g_nodes g) p i /\
    incl (basins_of g i) (basins_of g p);
  wf_children_nodup : forall p, In p (g_nodes g) -> NoDup (children_of g p);
  wf_children : forall p c, In p (g_nodes g) ->
    In c (children_of g p) <-> In c (g_nodes g) /\ parent_of g c = Some p;
  wf_roots_nodup : NoDup (g_roots g);
  wf_roots : forall i, In i (g_roots g) <-> In i (g_nodes g) /\ parent_of g i = None;
  wf_disjoint : forall i j b, In i (g_nodes g) -> In j (g_nodes g) -> i <> j ->
    parent_of g i = parent_of g j -> In b (basins_of g i) -> In b (basins_of g j) -> False
}.

(** Basin [b] belongs to an irreducible node. *)
Definition leaf_basin (g : graph) (b : nat) : Prop :=
  exists i, In i (g_nodes g) /\ ~ reducible g i /\ In b (basins_of g i).

(** [a] is an ancestor of [i] (its parent, the parent of its parent, ...). *)
Inductive ancestor (g : graph) (a : nat) : nat -> Prop :=
| anc_parent i : parent_of g i = Some a -> ancestor g a i
| anc_step i p : parent_of g i = Some p -> ancestor g a p -> ancestor g a i.

(** Removing [i] from [g] gave [g']: its children were handed to its parent. *)
Record taken_out (g g' : graph) (i : nat) : Prop := {
  to_nodes : g_nodes g' = filter (fun j => negb (Nat.eqb j i)) (g_nodes g);
  to_key : forall j, In j (g_nodes g') -> key_of g' j = key_of g j;
  to_red : forall j, In j (g_nodes g') -> n_red (g_heap g' j) = n_red (g_heap g j);
  to_basins : forall j, In j (g_nodes g') -> basins_of g' j = basins_of g j;
  to_min : forall j, In j (g_nodes g') -> n_min (g_heap g' j) = n_min (g_heap g j);
  to_parent : forall j, In j (g_nodes g') -> parent_of g' j =
    match parent_of g j with
    | Some p => if Nat.eqb p i then parent_of g i else Some p
    | None => None
    end
}.
