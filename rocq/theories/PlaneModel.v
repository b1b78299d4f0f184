(** Planes and the unit cell, core/utilities/voronoi.py lines 12-34 ([get_plane_dist]), 37-57
    ([get_planes_on_surface]), 100-171 ([cube_fraction_under_plane]) and 174-265
    ([get_cell_wrapped_voronoi]).

    Numbers are exact rationals; [round(x, 12)] rounds half to even at the twelfth decimal. *)
From Coq Require Import QArith.
From Verif Require Import Base RootsModel UnionModel ChargeModel CoordModel NearModel WeightModel RefineModel.
Local Open Scope Z_scope.

Definition round12 (x : Q) : Q := (inject_Z (py_round (x * inject_Z (10 ^ 12))) / inject_Z (10 ^ 12))%Q.

(** Lines 30-34. *)
Definition plane_dist (p : vec) (eqn : Q * Q * Q * Q) : Q :=
  let '(a, b, c, d) := eqn in let '(x, y, z) := p in round12 (a * x + b * y + c * z + d)%Q.

(** Lines 45-55 for one plane: the loop over vertices stops at the third one lying on the plane. *)
Fixpoint on_surface (eqn : Q * Q * Q * Q) (tol : Q) (vertices : list vec) (onplane : nat) : bool :=
  match vertices with
  | [] => false
  | (x, y, z) :: t =>
      let '(a, b, c, d) := eqn in
      if Qltb tol (qabs (x * a + y * b + z * c + d)) then on_surface eqn tol t onplane
      else if Nat.eqb (S onplane) 3 then true else on_surface eqn tol t (S onplane)
  end.

(** Lines 43-57; every iteration of the parallel loop writes its own element. *)
Definition planes_on_surface (eqns : list (Q * Q * Q * Q)) (vertices : list vec) (tol : Q) : list bool :=
  map (fun e => on_surface e tol vertices 0) eqns.

(** Lines 123-127. *)
Definition flip_coeffs (l : list Q) (d : Q) : list Q * Q :=
  fold_left (fun '(out, d) a => if Qltb a 0 then (out ++ [(- a)%Q], (d + - a)%Q) else (out ++ [a], d)) l ([], d).

(** Lines 130-137: [None] is the early return of 0. *)
Fixpoint collect (l : list Q) (d : Q) (coeffs : list Q) (n : nat) (denom : Q) : option (list Q * nat * Q) :=
  match l with
  | [] => Some (coeffs, n, denom)
  | a :: t => if Qeq_bool a 0 then (if Qltb d 0 then None else collect t d coeffs n denom)
              else collect t d (coeffs ++ [a]) (S n) (denom * (inject_Z (Z.of_nat (S n)) * a))%Q
  end.

(** Lines 148-151: row [i] holds the binary digits of [i], most significant first. *)
Definition corner_bits (n : nat) : list (list Z) :=
  map (fun i => map (fun j => if Nat.testbit i (n - 1 - j) then 1 else 0) (seq 0 n)) (seq 0 (2 ^ n)).

(** Lines 145-166. *)
Definition corner_sum (coeffs : list Q) (n : nat) (d : Q) : Q :=
  fold_left (fun volume v =>
    let dot := fold_left (fun acc '(i, j) => acc + inject_Z i * j)%Q (combine v coeffs) 0%Q in
    let weight := fold_left Z.add v 0 in
    let base := (d - dot)%Q in
    if Qltb 0 base
    then let term := (base ^ Z.of_nat n)%Q in
         if weight mod 2 =? 1 then (volume - term)%Q else (volume + term)%Q
    else volume) (corner_bits n) 0%Q.

Definition qmin (a b : Q) : Q := if Qltb a b then a else b.
Definition clamp01 (x : Q) : Q := qmin 1 (qmax 0 x).

(** Lines 111-171. *)
Definition cube_fraction (v : vec) (d : Q) : Q :=
  let '(a, b, c) := v in
  let d := (- d)%Q in
  let '(l, d) := flip_coeffs [a; b; c] d in
  match collect l d [] 0 1%Q with
  | None => 0%Q
  | Some (coeffs, n, denom) =>
      if Nat.eqb n 0 then (if Qle_bool d 0 then 1%Q else 0%Q)
      else clamp01 (qabs (round12 (corner_sum coeffs n d / denom)%Q))
  end.

(** Lines 179-188. *)
Definition transformations : list (Z * Z * Z) :=
  (0, 0, 0) :: flat_map (fun i => flat_map (fun j => flat_map (fun k =>
    if (i =? 0) && (j =? 0) && (k =? 0) then [] else [(i, j, k)]) [-1; 0; 1]) [-1; 0; 1]) [-1; 0; 1].

Definition vround12 (v : vec) : vec := let '(x, y, z) := v in (round12 x, round12 y, round12 z).
Definition vshift (p : vec) (t : Z * Z * Z) : vec :=
  let '(x, y, z) := p in let '(i, j, k) := t in (x + inject_Z i, y + inject_Z j, z + inject_Z k)%Q.
Definition vdot (a b : vec) : Q := let '(x, y, z) := a in let '(u, v, w) := b in (x * u + y * v + z * w)%Q.
Definition vopp (a : vec) : vec := let '(x, y, z) := a in (- x, - y, - z)%Q.

Record plane := Plane { pl_site : nat; pl_point : vec; pl_vector : vec }.
Record wrapped := Wrapped { w_site : nat; w_trans : nat; w_point : vec; w_vector : vec; w_volume : Q }.

(** Lines 199-240, one (plane, transformation): the volume under the moved plane. *)
Definition moved_volume (p : plane) (t : Z * Z * Z) : Q :=
  let vector := vround12 (pl_vector p) in
  cube_fraction vector (vdot (vopp vector) (vshift (pl_point p) t)).

(** The array [discard_trans] after the first parallel loop (lines 198-221).  [order] is the order in
    which the (plane, transformation) pairs happen to be processed. *)
Definition set_flag (flags : list bool) (i : nat) : outcome (list bool) :=
  if Nat.ltb i (length flags) then Done (upd flags i true) else Raised.

Definition all_pairs (planes : list plane) : list (plane * (nat * (Z * Z * Z))) :=
  list_prod planes (combine (seq 0 27) transformations).

Fixpoint mark_trans (order : list (plane * (nat * (Z * Z * Z)))) (flags : list bool) : outcome (list bool) :=
  match order with
  | [] => Done flags
  | (p, (i, t)) :: rest =>
      if Qeq_bool (moved_volume p t) 0
      then obind (set_flag flags (pl_site p * 27 + i)) (mark_trans rest)
      else mark_trans rest flags
  end.

(** Lines 176, 223-240 and 244-265: the kept (plane, transformation) pairs in order. *)
Definition cell_wrapped (order : list (plane * (nat * (Z * Z * Z)))) (planes : list plane) : outcome (list wrapped) :=
  let num_sites := length (nodup Nat.eq_dec (map pl_site planes)) in
  obind (mark_trans order (repeat false (num_sites * 27))) (fun flags =>
  Done (map (fun '(p, (i, t)) => Wrapped (pl_site p) i (vshift (pl_point p) t) (vround12 (pl_vector p)) (moved_volume p t))
    (filter (fun '(p, (i, t)) => negb (Qeq_bool (moved_volume p t) 1 || nth (pl_site p * 27 + i) flags false)) (all_pairs planes)))).
