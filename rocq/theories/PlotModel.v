(** The drawing of a bifurcation graph: [BifurcationGraph.get_plot], core/labelers/bifurcation_graph/graph.py lines 678-858.

    A node is given with its children; [order] is the order in which the graph holds its nodes, [roots] its
    [root_nodes].  Coordinates are exact; [r4] stands for [round(.., 4)].  Kept are the positions, the lines and the boxes
    of the figure; colours, labels, legend and layout are left out.  [None] stands for an exception (and for the mean of
    no children). *)
From Coq Require Import QArith.
From Verif Require Import Base TextModel VaspModel.
Local Open Scope Z_scope.

Inductive tree := Leaf (key : Z) (low high : Q) | Branch (key : Z) (low high : Q) (children : list tree).
Definition key (t : tree) : Z := match t with Leaf k _ _ | Branch k _ _ _ => k end.
Definition low (t : tree) : Q := match t with Leaf _ x _ | Branch _ x _ _ => x end.
Definition high (t : tree) : Q := match t with Leaf _ _ x | Branch _ _ x _ => x end.
Definition children (t : tree) : list tree := match t with Leaf _ _ _ => [] | Branch _ _ _ c => c end.
Definition is_leaf (t : tree) : bool := match t with Leaf _ _ _ => true | _ => false end.

(** ** Heights *)
Fixpoint find_y (k : Z) (d : list (Z * Q)) : option Q :=
  match d with [] => None | (a, y) :: d => if a =? k then Some y else find_y k d end.
Definition qsum (l : list Q) : Q := fold_right Qplus 0%Q l.
Definition mean (l : list Q) : option Q :=
  match l with [] => None | _ => Some (qsum l / inject_Z (Z.of_nat (List.length l)))%Q end.
(** Lines 694-706: [assign_y_positions]; the counter and the dictionary are passed along. *)
Fixpoint assign (t : tree) (n : Z) (d : list (Z * Q)) : option (Z * list (Z * Q)) :=
  match t with
  | Leaf k _ _ => Some (n + 1, (k, inject_Z n) :: d)
  | Branch k _ _ c =>
      obnd ((fix go (l : list tree) (n : Z) (d : list (Z * Q)) : option (Z * list (Z * Q)) :=
               match l with
               | [] => Some (n, d)
               | u :: l => match assign u n d with Some (n, d) => go l n d | None => None end
               end) c n d) (fun '(n, d) =>
      obnd (map_opt (fun u => find_y (key u) d) c) (fun ys =>
      obnd (mean ys) (fun y => Some (n, (k, y) :: d))))
  end.
(** Lines 714-715. *)
Fixpoint assign_all (l : list tree) (n : Z) (d : list (Z * Q)) : option (Z * list (Z * Q)) :=
  match l with
  | [] => Some (n, d)
  | u :: l => match assign u n d with Some (n, d) => assign_all l n d | None => None end
  end.
(** Lines 721-726; the minimum of nothing raises. *)
Definition qlow (l : list Q) : option Q := match l with [] => None | a :: l => Some (fold_left (fun m x => if Qle_bool m x then m else x) l a) end.
Definition qhigh (l : list Q) : option Q := match l with [] => None | a :: l => Some (fold_left (fun m x => if Qle_bool x m then m else x) l a) end.
Definition normalize (ys : list Q) : option (list Q) :=
  obnd (qlow ys) (fun m => let ys := map (fun y => y - m)%Q ys in
  obnd (qhigh ys) (fun h => Some (if Qle_bool h 0 then ys else map (fun y => y / h * 2)%Q ys))).

(** ** The figure *)
Definition point := (Q * Q)%type.
Definition segment := (point * point)%type.
Record box := Box { b_left : Q; b_right : Q; b_bottom : Q; b_top : Q }.
Record figure := Figure { f_y : list Q; f_lines : list segment; f_boxes : list box }.
Section Plot.
Variable r4 : Q -> Q.
(** [indices.index(key)]. *)
Fixpoint at_key (k : Z) (order : list tree) (ys : list Q) : option Q :=
  match order, ys with
  | t :: order, y :: ys => if key t =? k then Some y else at_key k order ys
  | _, _ => None
  end.
(** Lines 741-757. *)
Definition lines_to (order : list tree) (ys : list Q) (t u : tree) : option (list segment) :=
  obnd (at_key (key t) order ys) (fun py => obnd (at_key (key u) order ys) (fun cy =>
  let px := r4 (low t) in Some [((px, py), (px, cy)); ((px, cy), (r4 (low u), cy))])).
Definition lines_of (order : list tree) (ys : list Q) (t : tree) : option (list segment) :=
  obnd (map_opt (lines_to order ys t) (children t)) (fun l => Some (List.concat l)).
(** Lines 777-781, 808-822. *)
Definition box_of (division : Q) (t : tree) (y : Q) : box :=
  let x0 := r4 (low t) in let x1 := r4 (high t) in let x2 := (x0 + (1 # 100))%Q in
  Box x0 (if Qle_bool x2 x1 then x1 else x2) (y - division / 3)%Q (y + division / 3)%Q.
Definition get_plot (roots order : list tree) : option figure :=
  obnd (assign_all roots 0 []) (fun '(_, d) =>
  obnd (map_opt (fun t => find_y (key t) d) order) (fun ys =>
  obnd (normalize ys) (fun ys =>
  match List.length (filter is_leaf order) with
  | O => None
  | n =>
      let division := (2 / inject_Z (Z.of_nat n))%Q in
      obnd (map_opt (lines_of order ys) (filter (fun t => negb (is_leaf t)) order)) (fun ls =>
      Some (Figure ys (List.concat ls)
        (map (fun '(t, y) => box_of division t y) (filter (fun '(t, _) => is_leaf t) (combine order ys)))))
  end))).
End Plot.
