(** Specification of union-find: connectedness by the requested pairs. *)
From Verif Require Import Base UnionModel.

Inductive connected (E : list (nat * nat)) : nat -> nat -> Prop :=
| conn_refl x : connected E x x
| conn_edge x y : In (x, y) E -> connected E x y
| conn_sym x y : connected E x y -> connected E y x
| conn_trans x y z : connected E x y -> connected E y z -> connected E x z.

(** The pairs requested by a history. *)
Fixpoint pairs (ops : list uf_op) : list (nat * nat) :=
  match ops with
  | [] => []
  | OpUnion x y :: t => (x, y) :: pairs t
  | OpFind _ :: t => pairs t
  end.

(** All elements mentioned are below [n]. *)
Definition op_below (n : nat) (o : uf_op) : Prop :=
  match o with OpUnion x y => (x < n)%nat /\ (y < n)%nat | OpFind x => (x < n)%nat end.
