(** Specification of shifted union-find: sums of requested shifts along paths. *)
From Verif Require Import Base GridModel NeighModel ShiftModel.

(** [linked A x y s]: some path of the edges [A] from [x] to [y] has total shift [s]. *)
Inductive linked (A : list (nat * nat * offset)) : nat -> nat -> offset -> Prop :=
| linked_refl x : linked A x x (0, 0, 0)
| linked_edge x y s : In (x, y, s) A -> linked A x y s
| linked_sym x y s : linked A x y s -> linked A y x (oneg s)
| linked_trans x y z s t : linked A x y s -> linked A y z t -> linked A x z (oadd s t).

Fixpoint requests (ops : list s_op) : list (nat * nat * offset) :=
  match ops with
  | [] => []
  | SUnion a b s :: t => (a, b, s) :: requests t
  | SFind _ :: t => requests t
  end.

Definition s_below (n : nat) (o : s_op) : Prop :=
  match o with SUnion a b _ => (a < n)%nat /\ (b < n)%nat | SFind x => (x < n)%nat end.

(** Requests that agree with some assignment of cell images to elements. *)
Definition consistent (pos : nat -> offset) (R : list (nat * nat * offset)) : Prop :=
  forall a b s, In (a, b, s) R -> s = osub (pos b) (pos a).
