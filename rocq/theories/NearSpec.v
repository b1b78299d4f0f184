(** Specification of the near-grid method. *)
From Verif Require Import Base GridModel NeighSpec RootsSpec LabelsModel.

(** A nearest integer, the even one of two. *)
Definition nearest_even (q : Q) (z : Z) : Prop :=
  (-(1#2) <= q - inject_Z z <= 1#2)%Q /\ ((q - inject_Z z == 1#2)%Q \/ (q - inject_Z z == -(1#2))%Q -> Z.even z = true).
Definition nearest3 (g : q3) (s : Z * Z * Z) : Prop :=
  let '(a, b, c) := g in let '(i, j, k) := s in nearest_even a i /\ nearest_even b j /\ nearest_even c k.
Definition minus3 (g : q3) (s : Z * Z * Z) (r : q3) : Prop :=
  let '(a, b, c) := g in let '(i, j, k) := s in let '(x, y, z) := r in
  (x == a - inject_Z i /\ y == b - inject_Z j /\ z == c - inject_Z k)%Q.
Definition plus3 (g h r : q3) : Prop :=
  let '(a, b, c) := g in let '(i, j, k) := h in let '(x, y, z) := r in (x == a + i /\ y == b + j /\ z == c + k)%Q.

Section S.
Variables nx ny nz : Z.
Variable data : arr3 Q.
Variable nbs : list ((Z * Z * Z) * Q).
Variable grad : Z * Z * Z -> q3.
Variable vac top : Z * Z * Z -> Prop.

(** The corrected gradient step: round the gradient, add up what rounding lost, and
    correct by a further step once that exceeds half a voxel. *)
Definition corrected_step (pos : Z * Z * Z) (td : q3) (n : Z * Z * Z) (td' : q3) : Prop :=
  exists p rest td1 r, nearest3 (grad pos) p /\ minus3 (grad pos) p rest /\ plus3 td rest td1 /\
    nearest3 td1 r /\ minus3 td1 r td' /\
    let '(a, b, c) := p in let '(a', b', c') := r in periodic_target nx ny nz pos (a + a', b + b', c + c') n.

(** [climbing pos td path m]: the near-grid path that has visited [path] (excluding
    [pos]) and accumulated the correction [td] continues from [pos] to the maximum [m]. *)
Inductive climbing : Z * Z * Z -> q3 -> list (Z * Z * Z) -> Z * Z * Z -> Prop :=
| cl_end pos td path : top pos -> climbing pos td path pos
| cl_near pos td path n td' m : ~ top pos -> corrected_step pos td n td' -> ~ In n (pos :: path) -> ~ vac n ->
    climbing n td' (pos :: path) m -> climbing pos td path m
| cl_ongrid pos td path n td' u m : ~ top pos -> corrected_step pos td n td' -> In n (pos :: path) \/ vac n ->
    steepest nx ny nz data nbs pos u -> climbing u (0, 0, 0)%Q (pos :: path) m -> climbing pos td path m.
Definition climbs_to (v m : Z * Z * Z) : Prop := climbing v (0, 0, 0)%Q [] m.

(** The voxels whose assignment is refined: the initial ones, and the neighbours of
    every voxel whose assignment changed. *)
Variable start : Z * Z * Z -> Prop.
Variable label : Z * Z * Z -> Z.
Inductive refined : Z * Z * Z -> Prop :=
| rf_start v : start v -> refined v
| rf_spread v m s w : refined v -> climbs_to v m -> label m <> label v -> In s (map fst nbs) ->
    periodic_target nx ny nz v s w -> ~ vac w -> refined w.
End S.

(** ** the stored gradient and the initial pointers *)
Section G.
Variables nx ny nz : Z.
Variable data : arr3 Q.
Variable nbs : list ((Z * Z * Z) * Q).
Variable dir2lat : q3 * q3 * q3.

(** Slope along one axis: central difference, 0 where neither side is higher. *)
Definition axis_slope (v s : Z * Z * Z) (g : Q) : Prop :=
  let '(a, b, c) := s in
  exists hi lo, periodic_target nx ny nz v s hi /\ periodic_target nx ny nz v (- a, - b, - c) lo /\
  let h := value_at data hi in let l := value_at data lo in let m := value_at data v in
  ((h <= m /\ l <= m /\ g == 0) \/ ((m < h \/ m < l) /\ g == (h - l) / 2))%Q.

Definition dot3 (a b : q3) : Q := let '(x, y, z) := a in let '(x', y', z') := b in (x * x' + y * y' + z * z')%Q.
Definition raw_gradient (v : Z * Z * Z) (r : q3) : Prop :=
  exists gi gj gk, axis_slope v (1, 0, 0) gi /\ axis_slope v (0, 1, 0) gj /\ axis_slope v (0, 0, 1) gk /\
  let '(r0, r1, r2) := dir2lat in let g := (gi, gj, gk) in let '(a, b, c) := r in
  (a == dot3 r0 g /\ b == dot3 r1 g /\ c == dot3 r2 g)%Q.

Definition abs_bound (r : q3) (m : Q) : Prop :=
  let '(a, b, c) := r in (- m <= a <= m /\ - m <= b <= m /\ - m <= c <= m)%Q.
(** the largest absolute component *)
Definition max_norm (r : q3) (m : Q) : Prop := abs_bound r m /\ forall m', abs_bound r m' -> (m <= m')%Q.

Definition near_gradient (v : Z * Z * Z) (g : q3) : Prop :=
  exists r m, raw_gradient v r /\ max_norm r m /\ let '(a, b, c) := g in
  ((m < 1 # 10 ^ 30)%Q /\ exists s w, In s (map fst nbs) /\ periodic_target nx ny nz v s w /\ steepest nx ny nz data nbs v w /\
     let '(x, y, z) := s in (a == inject_Z x /\ b == inject_Z y /\ c == inject_Z z)%Q) \/
  ((1 # 10 ^ 30 <= m)%Q /\ let '(x, y, z) := r in (a * m == x /\ b * m == y /\ c * m == z)%Q).

(** A voxel points along its rounded gradient if that leads upwards, else to its
    steepest neighbour. *)
Variable grad : Z * Z * Z -> q3.
Definition points_to (v w : Z * Z * Z) : Prop :=
  exists p t, nearest3 (grad v) p /\ periodic_target nx ny nz v p t /\
  (((value_at data v < value_at data t)%Q /\ w = t) \/ ((value_at data t <= value_at data v)%Q /\ steepest nx ny nz data nbs v w)).

Variable top : Z * Z * Z -> Prop.
Inductive drifts : Z * Z * Z -> Z * Z * Z -> Prop :=
| dr_top v : top v -> drifts v v
| dr_step v w m : ~ top v -> points_to v w -> drifts w m -> drifts v m.
End G.
