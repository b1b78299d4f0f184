(** Union-find, utilities/union_find.py and toolkit/union_finder.py. *)
From Verif Require Import Base GridModel NeighModel RootsModel.

(** [a[i] = v] with numpy index conventions; [None] is an IndexError. *)
Definition np_set {A} (l : list A) (i : Z) (v : A) : option (list A) :=
  match np_idx (length l) i with Some k => Some (upd l k v) | None => None end.

Definition obind {A B} (o : outcome A) (f : A -> outcome B) : outcome B :=
  match o with Done a => f a | Raised => Raised | Running => Running end.
Definition oget {A} (o : option A) : outcome A :=
  match o with Some a => Done a | None => Raised end.

(** [find_root], union_find.py lines 11-16 (path halving).  Returns the mutated
    parent array and the root. *)
Fixpoint find_root (fuel : nat) (p : list Z) (x : Z) : outcome (list Z * Z) :=
  match fuel with
  | O => Running
  | S fuel' =>
      obind (oget (np_get p x)) (fun px =>
      if x =? px then Done (p, x)
      else obind (oget (np_get p px)) (fun ppx =>
           obind (oget (np_set p x ppx)) (fun p' =>
           obind (oget (np_get p' x)) (fun x' => find_root fuel' p' x'))))
  end.

(** [find_root_no_compression], union_find.py lines 20-24. *)
Fixpoint find_root_nc (fuel : nat) (p : list Z) (x : Z) : outcome Z :=
  match fuel with
  | O => Running
  | S fuel' =>
      obind (oget (np_get p x)) (fun px =>
      if x =? px then Done x else find_root_nc fuel' p px)
  end.

(** [union], union_find.py lines 96-101. *)
Definition union (fuel : nat) (p : list Z) (x y : Z) : outcome (list Z) :=
  obind (find_root fuel p x) (fun '(p1, rx) =>
  obind (find_root fuel p1 y) (fun '(p2, ry) =>
  oget (np_set p2 rx ry))).

(** [union_w_roots], union_find.py lines 81-92. *)
Definition union_w_roots (fuel : nat) (p : list Z) (x y : Z) (mask : list bool)
    : outcome (list Z * list bool) :=
  obind (find_root fuel p x) (fun '(p1, rx) =>
  obind (find_root fuel p1 y) (fun '(p2, ry) =>
  obind (oget (np_set p2 rx ry)) (fun p3 =>
  obind (oget (np_get mask rx)) (fun mrx =>
  obind (if mrx then oget (np_set mask rx false) else Done mask) (fun mask1 =>
  obind (oget (np_get mask1 ry)) (fun mry =>
  obind (if negb mry then oget (np_set mask1 ry true) else Done mask1) (fun mask2 =>
  Done (p3, mask2)))))))).

(** [compress_roots], union_find.py lines 158-170, with the loop run one iteration
    at a time in the order [order] (the concurrent version is in CompressModel.v).
    [find_root] mutates the shared [parents]. *)
Fixpoint compress_loop (fuel : nat) (order : list nat) (p new : list Z) : outcome (list Z) :=
  match order with
  | [] => Done new
  | i :: rest =>
      obind (oget (np_get p (Z.of_nat i))) (fun cur =>
      if cur =? -1 then compress_loop fuel rest p (upd new i (-1))
      else obind (find_root fuel p cur) (fun '(p', r) =>
           compress_loop fuel rest p' (upd new i r)))
  end.
Definition compress_roots (fuel : nat) (order : list nat) (p : list Z) : outcome (list Z) :=
  compress_loop fuel order p (repeat 0 (length p)).

(** [UnionFind] object: [_union] extends the list first, union_finder.py lines 9-18. *)
Definition extend_to (p : list Z) (higher : nat) : list Z :=
  p ++ map Z.of_nat (seq (length p) (S higher - length p)).
Definition uf_init : list Z := [0].
Definition uf_union (fuel : nat) (p : list Z) (x y : nat) : outcome (list Z) :=
  union fuel (extend_to p (Nat.max x y)) (Z.of_nat x) (Z.of_nat y).
Definition uf_find (fuel : nat) (p : list Z) (x : nat) : outcome (list Z * Z) :=
  find_root fuel p (Z.of_nat x).

(** [groups], union_finder.py lines 38-43: one sorted index list per unique root. *)
Definition uf_groups (fuel : nat) (order : list nat) (p : list Z) : outcome (list (list nat)) :=
  obind (compress_roots fuel order p) (fun roots =>
  Done (map (fun r => filter (fun i => nth i roots (-1) =? r) (seq 0 (length roots)))
            (np_unique roots))).

Inductive uf_op := OpUnion (x y : nat) | OpFind (x : nat).

(** A history of calls on a plain parent array. *)
Fixpoint run_plain (fuel : nat) (ops : list uf_op) (p : list Z) : outcome (list Z) :=
  match ops with
  | [] => Done p
  | OpUnion x y :: t => obind (union fuel p (Z.of_nat x) (Z.of_nat y)) (run_plain fuel t)
  | OpFind x :: t => obind (find_root fuel p (Z.of_nat x)) (fun '(p', _) => run_plain fuel t p')
  end.

(** A history of calls on a [UnionFind] object. *)
Fixpoint run_uf (fuel : nat) (ops : list uf_op) (p : list Z) : outcome (list Z) :=
  match ops with
  | [] => Done p
  | OpUnion x y :: t => obind (uf_union fuel p x y) (run_uf fuel t)
  | OpFind x :: t => obind (uf_find fuel p x) (fun '(p', _) => run_uf fuel t p')
  end.

(** A history of [union_w_roots] calls. *)
Fixpoint run_mask (fuel : nat) (req : list (nat * nat)) (p : list Z) (mask : list bool)
    : outcome (list Z * list bool) :=
  match req with
  | [] => Done (p, mask)
  | (x, y) :: t =>
      obind (union_w_roots fuel p (Z.of_nat x) (Z.of_nat y) mask) (fun '(p', m') => run_mask fuel t p' m')
  end.
