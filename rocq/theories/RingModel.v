(** Point, ring or cage: [get_pt_ring_cage] of core/labelers/bifurcation_graph/graph_numba/bifurcation_base.py
    (lines 19-74), called by [make_irreducible] of nodes.py (line 307).

    Numbers are exact rationals.  [svd] stands for the largest and the smallest singular value of the centred points,
    [s[0]] and [s[-1]] of line 64; the division of line 66 raises for [s[0] = 0]. *)
From Coq Require Import QArith Qround.
From Verif Require Import Base ChargeModel NearModel RootsModel.
Local Open Scope Z_scope.

Definition map2 (f : Q -> Q -> Q) (a b : vec) : vec := let '(x, y, z) := a in let '(u, v, w) := b in (f x u, f y v, f z w).
(** Lines 40-54. *)
Definition unwrap1 (ref c : Q) : Q := (c - inject_Z (py_round (c - ref)))%Q.
Definition unwrap (pts : list vec) : list vec := match pts with [] => [] | ref :: _ => map (map2 unwrap1 ref) pts end.
(** Lines 57-60. *)
Definition total (pts : list vec) : vec := fold_left (map2 Qplus) pts (0, 0, 0)%Q.
Definition average (pts : list vec) : vec := vmap (fun x => x / inject_Z (Z.of_nat (List.length pts)))%Q (total pts).
(** Line 63. *)
Definition centred (pts : list vec) : list vec := let u := unwrap pts in map (fun p => vsub p (average u)) u.
(** Lines 27-74. *)
Definition pt_ring_cage (svd : list vec -> Q * Q) (tol : Q) (pts : list vec) : outcome Z :=
  if Nat.ltb (List.length pts) 3 then Done 0
  else if Nat.eqb (List.length pts) 3 then Done 1
  else let '(largest, smallest) := svd (centred pts) in
       if Qeq_bool largest 0 then Raised
       else if Qltb (smallest / largest) tol then Done 1 else Done 2.
