(** Specification of the bifurcation domains. *)
From Coq Require Import QArith Sorting.Sorted.
From Verif Require Import Base UnionSpec.
Local Open Scope Z_scope.

(** The pairs of basins joined at or above [v]. *)
Definition joins (cs : list (nat * nat * Q)) (v : Q) : list (nat * nat) :=
  map fst (filter (fun c => Qle_bool v (snd c)) cs).

Definition mentioned (E : list (nat * nat)) (b : nat) : Prop := exists c, In (b, c) E \/ In (c, b) E.

(** [g] lists, in increasing order, a connected component of the graph [E] on the
    basins mentioned in it. *)
Definition component (E : list (nat * nat)) (g : list nat) : Prop :=
  g <> [] /\ StronglySorted lt g /\
  forall i, In i g -> mentioned E i /\ forall j, In j g <-> mentioned E j /\ connected E i j.

Definition components (E : list (nat * nat)) (gs : list (list nat)) : Prop :=
  (forall g, In g gs -> component E g) /\ (forall b, mentioned E b -> exists g, In g gs /\ In b g) /\
  NoDup gs.
