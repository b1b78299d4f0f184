(** Specification of periodic dimensionality: the rank of the shifts of closed loops. *)
From Verif Require Import Base GridModel NeighModel ShiftModel ShiftSpec ChargeModel CoordProofs CycleModel.

Definition vzero : vec := (0, 0, 0)%Q.
Definition vadd (a b : vec) : vec :=
  let '(a1, a2, a3) := a in let '(b1, b2, b3) := b in (a1 + b1, a2 + b2, a3 + b3)%Q.

(** Linear combination (missing coefficients count as absent terms). *)
Fixpoint lincomb (cs : list Q) (l : list vec) : vec :=
  match cs, l with
  | c :: cs', v :: l' => vadd (scale c v) (lincomb cs' l')
  | _, _ => vzero
  end.

Definition in_span (l : list vec) (u : vec) : Prop :=
  exists cs, length cs = length l /\ veq u (lincomb cs l).

Definition independent (l : list vec) : Prop :=
  forall cs, length cs = length l -> veq (lincomb cs l) vzero -> Forall (fun c => c == 0)%Q cs.

(** [rank_of L k]: the shifts in [L] generate a lattice of rank [k]. *)
Definition rank_of (L : offset -> Prop) (k : nat) : Prop :=
  exists b, length b = k /\ (forall s, In s b -> L s) /\ independent (map qoff b) /\
    forall s, L s -> in_span (map qoff b) (qoff s).

(** Periodic graph of a solid: every voxel with [src] is joined to each of its solid
    neighbours, with the cell shift of the step. *)
Definition grid_edges (nx ny nz : Z) (neighbors : list offset) (src solid : voxel3 -> bool)
    : list (nat * nat * offset) :=
  flat_map (fun v => if src v then
      flat_map (fun d => let '(w, s) := neigh3 nx ny nz v d in
        if solid w then [(Z.to_nat (flat3 ny nz v), Z.to_nat (flat3 ny nz w), s)] else []) neighbors
      else []) (voxels nx ny nz).

(** Shifts of the closed loops through [x]. *)
Definition loops (E : list (nat * nat * offset)) (x : nat) (s : offset) : Prop := linked E x x s.

(** Neighbour lists: nonzero unit steps, closed under reversal. *)
Definition unit_steps (neighbors : list offset) : Prop :=
  forall a b c, In (a, b, c) neighbors ->
    (a, b, c) <> (0, 0, 0) /\ -1 <= a <= 1 /\ -1 <= b <= 1 /\ -1 <= c <= 1 /\
    In (- a, - b, - c) neighbors.

(** Bound on an image offset. *)
Definition within (B : Z) (s : offset) : Prop :=
  let '(a, b, c) := s in - B <= a <= B /\ - B <= b <= B /\ - B <= c <= B.
