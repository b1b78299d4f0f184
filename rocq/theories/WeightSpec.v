(** Specification of the weight method: how every voxel is shared between basins. *)
From Verif Require Import Base GridModel NeighSpec RootsSpec UnionSpec LabelsSpec.

Section S.
Context {V : Type}.                (* voxels *)
Variables ref chg : V -> Q.        (* reference value, amount of charge in the voxel *)
Variable pv : Q.                   (* volume of a voxel *)
Variable top : V -> Prop.          (* the maxima *)
Variable vor : V -> list (V * Q).  (* Voronoi neighbours with facet area / distance *)
Variable best : V -> V -> Prop.    (* steepest neighbour *)
Variable cells : list V.           (* the voxels outside the vacuum *)
Variable K : nat.                  (* number of basins *)
Variable basin : V -> nat -> Prop. (* basin of a maximum *)

(** [n] is a direct uphill neighbour of [v] (with a fallback for voxels that have no
    higher Voronoi neighbour). *)
Definition uphill (v n : V) : Prop :=
  (exists a, In (n, a) (vor v) /\ (ref v < ref n)%Q) \/
  ((forall m a, In (m, a) (vor v) -> (ref m <= ref v)%Q) /\ best v n).

(** Total flux out of [v] and the fraction flowing to basin [b] given the shares of
    the neighbours. *)
Definition outflow (v : V) : Q :=
  qsum (map (fun na : V * Q => if Qltb (ref v) (ref (fst na)) then (ref (fst na) - ref v) * snd na else 0)%Q (vor v)).
Definition inherited (share : V -> nat -> Q) (v : V) (b : nat) : Q :=
  (qsum (map (fun na : V * Q => if Qltb (ref v) (ref (fst na))
                 then (ref (fst na) - ref v) * snd na * share (fst na) b else 0)%Q (vor v)) / outflow v)%Q.

(** The shares defined by Yu and Trinkle: a maximum belongs to its basin, every other
    voxel inherits the shares of its higher neighbours in proportion to the flux. *)
Record ideal_shares (share : V -> nat -> Q) : Prop := {
  is_max : forall v c b, In v cells -> top v -> basin v c ->
     (share v b == if Nat.eqb b c then 1 else 0)%Q;
  is_flux : forall v b, In v cells -> ~ top v ->
     (exists n a, In (n, a) (vor v) /\ (ref v < ref n)%Q) -> (share v b == inherited share v b)%Q;
  is_flat : forall v n b, In v cells -> ~ top v ->
     (forall n a, In (n, a) (vor v) -> (ref n <= ref v)%Q) -> best v n -> (share v b == share n b)%Q
}.

(** The uphill neighbours do not all belong wholly to one basin. *)
Definition mixed (share : V -> nat -> Q) (v : V) : Prop :=
  ~ exists c, forall n, uphill v n -> (share n c == 1)%Q.

Definition sharing (share : V -> nat -> Q) (v : V) : list nat :=
  filter (fun b => Qltb 0 (share v b)) (seq 0 K).

(** What the result guarantees whatever the shares are. *)
Record weight_result (share : V -> nat -> Q) (lab : V -> option Z) (charges volumes : list Q) : Prop := {
  wr_nonneg : forall v b, In v cells -> (0 <= share v b)%Q;
  wr_range : forall v b, In v cells -> (K <= b)%nat -> (share v b == 0)%Q;
  wr_total : forall v, In v cells -> (qsum (map (share v) (seq 0 K)) == 1)%Q;
  wr_len : length charges = K /\ length volumes = K;
  wr_charge : forall b, (b < K)%nat -> (nth b charges 0 == qsum (map (fun v => chg v * share v b) cells))%Q;
  wr_volume : forall b, (b < K)%nat -> (nth b volumes 0 == qsum (map (fun v => pv * share v b) cells))%Q;
  (* maxima belong to their own basin; everything else only to basins of uphill neighbours *)
  wr_max : forall v c b, In v cells -> top v -> basin v c -> (share v b == if Nat.eqb b c then 1 else 0)%Q;
  wr_support : forall v b, In v cells -> ~ top v -> (0 < share v b)%Q ->
     exists n, uphill v n /\ In n cells /\ (0 < share n b)%Q;
  (* a voxel whose uphill neighbours all belong wholly to one basin does too *)
  wr_interior : forall v b, In v cells -> ~ top v ->
     (forall n, uphill v n -> (share n b == 1)%Q) -> (share v b == 1)%Q;
  (* the label is a basin holding a part of the voxel, and a largest part *)
  wr_label : forall v, In v cells -> exists b, lab v = Some (Z.of_nat b) /\ (b < K)%nat /\
     (0 < share v b)%Q /\
     ((length (sharing share v) <= 26)%nat -> forall b', (share v b' <= share v b + (3 # 1000000))%Q)
}.

(** The program drops shares below 1e-30 and all but the 26 largest when it passes
    them on to lower voxels. *)
Definition nothing_dropped (share : V -> nat -> Q) : Prop :=
  forall v, In v cells -> (forall b, (0 < share v b)%Q -> (Qmake 1 (10 ^ 30) <= share v b)%Q) /\ (length (sharing share v) <= 26)%nat.

(** Consequences of [weight_result]: conservation. *)
Definition conserved (charges volumes : list Q) : Prop :=
  (qsum charges == qsum (map chg cells))%Q /\
  (qsum volumes == pv * inject_Z (Z.of_nat (length cells)))%Q.
End S.

(** The weight method on a periodic grid. *)
Section Grid.
Variables nx ny nz : Z.
Definition outside_vacuum (vac : arr3 bool) : list (Z * Z * Z) :=
  filter (fun v => negb (value_at vac v)) (voxels nx ny nz).
Definition periodic_neighbours (facets : list ((Z * Z * Z) * Q)) (v : Z * Z * Z) : list ((Z * Z * Z) * Q) :=
  map (fun sa : (Z * Z * Z) * Q =>
    let '(i, j, k) := v in let '((a, b, c), x) := sa in (((i + a) mod nx, (j + b) mod ny, (k + c) mod nz), x)) facets.
(** The maximum [m] belongs to the group whose representative is number [c]. *)
Definition group_of (reps : list (Z * Z * Z)) (E : list (nat * nat)) (m : Z * Z * Z) (c : nat) : Prop :=
  exists b, nth_error reps c = Some b /\ connected E (voxel_number ny nz m) (voxel_number ny nz b).

(** An offset that a single wrap brings back into the cell. *)
Definition small_offset (s : Z * Z * Z) : Prop :=
  let '(a, b, c) := s in - nx <= a <= nx /\ - ny <= b <= ny /\ - nz <= c <= nz.
End Grid.
