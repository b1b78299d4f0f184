(** What a bond radius should be. *)
From Coq Require Import QArith Qabs.
From Verif Require Import Base ChargeModel.
Local Open Scope Z_scope.

(** The position at fraction [s] of the way from [a] to [b]. *)
Definition on_bond (a b : vec) (s : Q) : vec :=
  let '(x, y, z) := a in let '(x', y', z') := b in
  (x + s * (x' - x), y + s * (y' - y), z + s * (z' - z))%Q.

Definition same_place (p q : vec) : Prop :=
  let '(x, y, z) := p in let '(x', y', z') := q in (x == x')%Q /\ (y == y')%Q /\ (z == z')%Q.

(** A function of the position, not of how its coordinates are written. *)
Definition of_place {A} (eqA : A -> A -> Prop) (f : vec -> A) : Prop := forall p q, same_place p q -> eqA (f p) (f q).

(** [best near P k]: [k] has property [P] and no other index with [P] is nearer to [near], those
    before it being farther. *)
Definition best (near : Q) (P : nat -> Prop) (k : nat) : Prop :=
  P k /\ forall i, P i ->
    (Qabs (inject_Z (Z.of_nat k) - near) <= Qabs (inject_Z (Z.of_nat i) - near))%Q /\
    ((i < k)%nat -> (Qabs (inject_Z (Z.of_nat k) - near) < Qabs (inject_Z (Z.of_nat i) - near))%Q).

Definition local_max (v : nat -> Q) (n : nat) (i : nat) : Prop :=
  (0 < i < n - 1)%nat /\ (v (i - 1)%nat <= v i)%Q /\ (v (i + 1)%nat < v i)%Q.
Definition local_min (v : nat -> Q) (n : nat) (i : nat) : Prop :=
  (0 < i < n - 1)%nat /\ (v i <= v (i - 1)%nat)%Q /\ (v i < v (i + 1)%nat)%Q.

(** First point with a label that is neither missing nor the atom's; -1 if there is none. *)
Definition foreign_start (lab : nat -> Z) (n : nat) (atom : Z) (m : Z) : Prop :=
  (exists i, (i < n)%nat /\ m = Z.of_nat i /\ lab i <> -1 /\ lab i <> atom /\
     forall j, (j < i)%nat -> lab j = -1 \/ lab j = atom) \/
  (m = -1 /\ forall j, (j < n)%nat -> lab j = -1 \/ lab j = atom).

(** Strictly rising up to [m] and strictly falling after it, one step on either side of [k]. *)
Definition single_peak (val : Q -> Q) (k m : Q) : Prop :=
  (forall x y, k - 1 <= x -> x < y -> y <= m -> val x < val y)%Q /\
  (forall x y, m <= x -> x < y -> y <= k + 1 -> val y < val x)%Q /\ (k - 1 <= m <= k + 1)%Q.

(** [radius_rule n lab cov val atom eps res]: [n] points with labels [lab] and values [val] (position in steps); [eps] is the accuracy of the refinement. *)
Inductive radius_rule (n : nat) (lab : nat -> Z) (cov : Z -> bool) (val : Q -> Q) (atom : Z) (eps : Q) : Q * bool * bool -> Prop :=
| rr_single f : (f == 1 # 2)%Q -> (forall i, (i < n)%nat -> lab i = lab 0%nat) -> radius_rule n lab cov val atom eps (f, true, false)
| rr_foreign f : (f == 1 # 2)%Q ->
    (exists i, (i < n)%nat /\ cov (lab i) = false /\ lab i <> lab 0%nat /\ lab i <> lab (n - 1)%nat) ->
    radius_rule n lab cov val atom eps (f, true, false)
| rr_covalent k x f :
    (forall i, (i < n)%nat -> cov (lab i) = true \/ lab i = lab 0%nat \/ lab i = lab (n - 1)%nat) ->
    (exists i j, (i < n)%nat /\ (j < n)%nat /\ lab i <> lab j) ->
    best (inject_Z (Z.of_nat n - 1) / 2)
      (fun i => cov (lab i) = true /\ local_max (fun i => val (inject_Z (Z.of_nat i))) n i) k ->
    (Qabs (x - inject_Z (Z.of_nat k)) < 1)%Q -> (val (inject_Z (Z.of_nat k)) <= val x)%Q ->
    (forall m, single_peak val (inject_Z (Z.of_nat k)) m -> (Qabs (x - m) <= eps)%Q) ->
    (f == x / inject_Z (Z.of_nat n - 1))%Q ->
    radius_rule n lab cov val atom eps (f, true, false)
| rr_ionic k x f m :
    (forall i, (i < n)%nat -> cov (lab i) = true \/ lab i = lab 0%nat \/ lab i = lab (n - 1)%nat) ->
    (exists i j, (i < n)%nat /\ (j < n)%nat /\ lab i <> lab j) ->
    (forall i, cov (lab i) = true -> ~ local_max (fun i => val (inject_Z (Z.of_nat i))) n i) ->
    foreign_start lab n atom m ->
    best (inject_Z m) (local_min (fun i => val (inject_Z (Z.of_nat i))) n) k ->
    (Qabs (x - inject_Z (Z.of_nat k)) < 1)%Q -> (val x <= val (inject_Z (Z.of_nat k)))%Q ->
    (forall m, single_peak (fun t => (- val t)%Q) (inject_Z (Z.of_nat k)) m -> (Qabs (x - m) <= eps)%Q) ->
    (f == x / inject_Z (Z.of_nat n - 1))%Q ->
    radius_rule n lab cov val atom eps (f, false, false)
| rr_failed f : (f == 1 # 2)%Q ->
    (forall i, cov (lab i) = true -> ~ local_max (fun i => val (inject_Z (Z.of_nat i))) n i) ->
    (forall i, ~ local_min (fun i => val (inject_Z (Z.of_nat i))) n i) ->
    radius_rule n lab cov val atom eps (f, true, true).

(** The label of a point: that of the nearest voxel, moved to another image if the site is more than
    half a cell away in some direction; the label -1 (none) refers to the last site. *)
Definition labelled (nearest : vec -> Z) (coords : list vec) (p : vec) (l : Z) : Prop :=
  exists x y z, nth_error coords (if (nearest p =? -1)%Z then length coords - 1 else Z.to_nat (nearest p))%nat = Some (x, y, z) /\
    let '(px, py, pz) := p in
    (((Qabs (x - px) <= 1 # 2) /\ (Qabs (y - py) <= 1 # 2) /\ (Qabs (z - pz) <= 1 # 2))%Q /\ l = nearest p \/
     ((1 # 2 < Qabs (x - px)) \/ (1 # 2 < Qabs (y - py)) \/ (1 # 2 < Qabs (z - pz)))%Q /\ l = nearest p + Z.of_nat (length coords)).
