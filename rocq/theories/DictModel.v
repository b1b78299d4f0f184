(** Graphs to dictionaries and back, core/labelers/bifurcation_graph/nodes.py
    ([NodeBase.to_dict], [IrreducibleNode.to_dict], [NodeBase.from_dict]) and graph.py
    ([BifurcationGraph.__init__], [to_dict], [from_dict]).

    The fields of a node that editing never touches are kept beside the graph as a payload.
    The structure and the neighbour settings are passed through by pymatgen and are left out. *)
From Coq Require Import QArith.
From Verif Require Import Base RootsModel UnionModel LabelsModel NodesModel.
Local Open Scope Z_scope.

Record payload := Payload {
  y_dim : Z;
  y_atoms : list Z;
  y_subtype : option Z;          (** [DomainSubtype], numbered *)
  y_feature : Z;                 (** [FeatureType], numbered; 0 is [unknown] *)
  y_sphere : option Z;           (** [nearest_atom_sphere] *)
  y_beyond : option Q;           (** [dist_beyond_atom] *)
  y_min_surf : option Q;
  y_avg_surf : option Q
}.

Record full := Full {
  f_graph : graph;
  f_pay : nat -> payload;
  f_type : Z;                    (** [labeler_type], numbered *)
  f_maxima : list (Q * Q * Q);
  f_charges : list Q;
  f_volumes : list Q
}.

(** Dictionaries of nodes; the surface distances are there for irreducible nodes only. *)
Record ndict := NDict {
  d_type : bool;                 (** [domain_type]: is it [ReducibleNode]? *)
  d_key : Z;
  d_basins : list nat;
  d_dim : Z;
  d_atoms : list Z;
  d_min : Q;
  d_max : Q;
  d_parent : option Z;
  d_subtype : option Z;
  d_surf : option (option Q * option Q)
}.

Record gdict := GDict {
  q_nodes : option (list ndict); (** [None]: no entry "nodes" *)
  q_type : Z;
  q_maxima : list (Q * Q * Q);
  q_charges : list Q;
  q_volumes : list Q;
  q_radii : option (list Q)
}.

(** nodes.py lines 204-223 and 532-537. *)
Definition node_to_dict (f : full) (i : nat) : ndict :=
  let n := g_heap (f_graph f) i in
  let y := f_pay f i in
  NDict (n_red n) (n_key n) (n_basins n) (y_dim y) (y_atoms y) (n_min n) (n_max n)
    (match n_parent n with None => None | Some p => Some (n_key (g_heap (f_graph f) p)) end)
    (y_subtype y)
    (if n_red n then None else Some (y_min_surf y, y_avg_surf y)).

(** graph.py lines 263-291; graphs never have an attribute [atomic_radii] (line 55-77). *)
Definition to_dict (f : full) : gdict :=
  GDict (Some (map (node_to_dict f) (g_nodes (f_graph f)))) (f_type f) (f_maxima f) (f_charges f)
    (f_volumes f) None.

Definition dict_get (d : list (Z * nat)) (k : Z) : option nat :=
  option_map snd (find (fun e => fst e =? k) d).

(** [node_from_key] (graph.py line 133): a missing key raises KeyError. *)
Definition key_node (g : graph) (k : option Z) : outcome (option nat) :=
  match k with
  | None => Done None
  | Some k => match dict_get (g_keys g) k with Some i => Done (Some i) | None => Raised end
  end.

(** nodes.py lines 226-230 with the constructors, lines 34-78, 237-239 and 354-374.  Surface
    distances are an unexpected argument for reducible nodes: TypeError. *)
Definition node_from_dict (f : full) (d : ndict) : outcome full :=
  match d_type d, d_surf d with
  | true, Some _ => Raised
  | _, _ =>
      obind (key_node (f_graph f) (d_parent d)) (fun parent =>
      obind (add_node (f_graph f) (d_type d) (d_basins d) (0 <? d_dim d) (d_min d) (d_max d)
               (Some (d_key d)) parent) (fun '(g, n) =>
      let '(s1, s2) := match d_surf d with Some s => s | None => (None, None) end in
      Done (Full g
        (fun j => if Nat.eqb n j
                  then Payload (d_dim d) (d_atoms d) (d_subtype d) 0 None None s1 s2
                  else f_pay f j)
        (f_type f) (f_maxima f) (f_charges f) (f_volumes f))))
  end.

Fixpoint add_dicts (f : full) (l : list ndict) : outcome full :=
  match l with
  | [] => Done f
  | d :: t => obind (node_from_dict f d) (fun f1 => add_dicts f1 t)
  end.

Definition no_payload : payload := Payload 0 [] None 0 None None None None.

(** graph.py lines 294-331: the result and what is left of the argument ([pop]). *)
Definition from_dict (d : gdict) : outcome full * gdict :=
  match q_nodes d with
  | None => (Raised, d)
  | Some nodes =>
      (add_dicts (Full empty_graph (fun _ => no_payload) (q_type d) (q_maxima d) (q_charges d)
                    (q_volumes d)) nodes,
       GDict None (q_type d) (q_maxima d) (q_charges d) (q_volumes d) (q_radii d))
  end.
