(** When a node of one graph looks like a node of another one. *)
From Coq Require Import QArith.
From Verif Require Import Base NodesModel NodesSpec DictModel.
Local Open Scope Z_scope.

Definition parent_key (g : graph) (i : nat) : option Z :=
  match parent_of g i with None => None | Some p => Some (key_of g p) end.

Record looks_like (f f' : full) (i i' : nat) : Prop := {
  lk_key : key_of (f_graph f') i' = key_of (f_graph f) i;
  lk_red : n_red (g_heap (f_graph f') i') = n_red (g_heap (f_graph f) i);
  lk_basins : basins_of (f_graph f') i' = basins_of (f_graph f) i;
  lk_min : n_min (g_heap (f_graph f') i') = n_min (g_heap (f_graph f) i);
  lk_max : n_max (g_heap (f_graph f') i') = n_max (g_heap (f_graph f) i);
  lk_inf : n_infinite (g_heap (f_graph f') i') = n_infinite (g_heap (f_graph f) i);
  lk_parent : parent_key (f_graph f') i' = parent_key (f_graph f) i;
  lk_dim : y_dim (f_pay f' i') = y_dim (f_pay f i);
  lk_atoms : y_atoms (f_pay f' i') = y_atoms (f_pay f i);
  lk_subtype : y_subtype (f_pay f' i') = y_subtype (f_pay f i);
  lk_surf : n_red (g_heap (f_graph f) i) = false ->
    y_min_surf (f_pay f' i') = y_min_surf (f_pay f i) /\ y_avg_surf (f_pay f' i') = y_avg_surf (f_pay f i)
}.

(** A node is infinite when its dimensionality is positive. *)
Definition dims_agree (f : full) : Prop :=
  forall i, In i (g_nodes (f_graph f)) -> n_infinite (g_heap (f_graph f) i) = (0 <? y_dim (f_pay f i)).
