(** Construction of the bifurcation graph from the domains, core/labelers/bifurcation_graph/graph.py lines 538-608 (the
    end of [from_labeler]).

    [DomainSubtype] is numbered in the order of enum_and_styling.py lines 60-69.  The payload of nodes created by the last
    step ([make_irreducible]) is not followed. *)
From Coq Require Import QArith.
From Verif Require Import Base GridModel RootsModel UnionModel LabelsModel NodesModel DictModel SplitModel.
Local Open Scope Z_scope.

Definition sub_reducible : Z := 0.
Definition sub_root : Z := 1.
Definition sub_dom : Z := 2.
Definition sub_dim : Z := 3.
Definition sub_atom : Z := 4.
Definition sub_point : Z := 6.

Definition set_pay (f : full) (i : nat) (y : payload) : full :=
  Full (f_graph f) (fun j => if Nat.eqb i j then y else f_pay f j) (f_type f) (f_maxima f) (f_charges f) (f_volumes f).
Definition set_graph (f : full) (g : graph) : full := Full g (f_pay f) (f_type f) (f_maxima f) (f_charges f) (f_volumes f).
(** Lines 550-582: one domain; [keys] is [node_keys]. *)
Definition add_feature (n : news) (st : full * list Z) (k : nat) : outcome (full * list Z) :=
  let '(f, keys) := st in
  let '(E, atoms) := nth k n (dm0, []) in
  obind (if m_parent E =? -1 then Done None
         else obind (oget (np_get keys (m_parent E))) (fun key => key_node (f_graph f) (Some key))) (fun parent =>
  let red := existsb (fun e : domain * list nat => m_parent (fst e) =? Z.of_nat k) n in
  obind (add_node (f_graph f) red (m_basins E) (0 <? m_dim E) (m_min E) (m_max E) None parent) (fun '(g, i) =>
  Done (set_pay (set_graph f g) i
          (Payload (m_dim E) (map Z.of_nat atoms) (Some (if red then sub_reducible else sub_point)) 0 None None None None),
        keys ++ [n_key (g_heap g i)]))).
(** Lines 585-599: one reducible node. *)
Definition set_subtype (f : full) (i : nat) : full :=
  let g := f_graph f in
  let y := f_pay f i in
  let with_sub s := set_pay f i (Payload (y_dim y) (y_atoms y) (Some s) (y_feature y) (y_sphere y) (y_beyond y) (y_min_surf y) (y_avg_surf y)) in
  match n_parent (g_heap g i) with
  | None => with_sub sub_root
  | Some p =>
      if negb (Nat.eqb (length (n_basins (g_heap g p))) (length (n_basins (g_heap g i)))) then with_sub sub_dom
      else if negb (y_dim (f_pay f p) =? y_dim y) then with_sub sub_dim
      else if negb (Nat.eqb (length (y_atoms (f_pay f p))) (length (y_atoms y))) then with_sub sub_atom
      else f
  end.
Definition construct (n : news) (type : Z) (maxima : list (Q * Q * Q)) (charges volumes : list Q) : outcome full :=
  obind (ofold (add_feature n) (seq 0 (length n)) (Full empty_graph (fun _ => no_payload) type maxima charges volumes, [])) (fun '(f, _) =>
  Done (fold_left set_subtype (filter (fun i => n_red (g_heap (f_graph f) i)) (g_nodes (f_graph f))) f)).
(** Lines 601-608. *)
Definition simplify (argsort : list Q -> list nat) (fuel : nat) (cutoff1 cutoff2 : Q) (g : graph) : outcome graph :=
  obind (remove_shallow argsort cutoff1 g) (combine_shallow argsort fuel cutoff2).
