(** Parabolic refinement of maxima, [refine_frac_max_parabolic] and [refine_maxima],
    src/baderkit/core/utilities/interpolation.py lines 219-377. *)
From Verif Require Import Base GridModel ChargeModel NearModel SurfaceModel.
From Coq Require Import Qround.
Local Open Scope Z_scope.

Section Refine.
(** [np.linalg.solve n A b]: [None] when it raises [LinAlgError]. *)
Variable solve : nat -> (nat -> nat -> Q) -> (nat -> Q) -> option (list Q).
(** The square root. *)
Variable root : Q -> Q.
Variables nx ny nz : Z.
Variable grid : arr3 Q.
Variable lattice : mat.

(** The loop [for dx, dy, dz in range(-1, 2)], lines 255-260 and 268-270. *)
Definition unit3 : list (Z * Z * Z) := list_prod (list_prod [-1; 0; 1] [-1; 0; 1]) [-1; 0; 1].
Definition region (c o : Z * Z * Z) : Q :=
  let '(ix, iy, iz) := c in let '(dx, dy, dz) := o in grid ((ix + dx) mod nx) ((iy + dy) mod ny) ((iz + dz) mod nz).

(** Lines 271-289: one row of the design matrix. *)
Definition off_cart (o : Z * Z * Z) : vec :=
  let '(dx, dy, dz) := o in
  let fxo := (inject_Z dx * (1 / inject_Z nx))%Q in let fyo := (inject_Z dy * (1 / inject_Z ny))%Q in let fzo := (inject_Z dz * (1 / inject_Z nz))%Q in
  let '((a0, a1, a2), (b0, b1, b2), (c0, c1, c2)) := lattice in
  (Qred (a0 * fxo + b0 * fyo + c0 * fzo), Qred (a1 * fxo + b1 * fyo + c1 * fzo), Qred (a2 * fxo + b2 * fyo + c2 * fzo))%Q.
Definition features (p : vec) : list Q :=
  let '(ox, oy, oz) := p in [1; ox; oy; oz; ox * ox; oy * oy; oz * oz; ox * oy; ox * oz; oy * oz]%Q.
Definition row (o : Z * Z * Z) (i : nat) : Q := nth i (features (off_cart o)) 0%Q.

(** Lines 294-299, the regularisation being [1e-10]. *)
Definition eps : Q := 1 # 10000000000.
Definition normal_matrix (i j : nat) : Q :=
  (qsum (map (fun o => row o i * row o j) unit3) + (if Nat.eqb i j then eps else 0))%Q.
Definition normal_rhs (c : Z * Z * Z) (i : nat) : Q := qsum (map (fun o => (row o i * region c o)%Q) unit3).

(** Lines 306-318. *)
Definition hessian (co : list Q) (i j : nat) : Q :=
  let a := fun n => nth n co 0%Q in
  match i, j with
  | 0%nat, 0%nat => 2 * a 4%nat | 1%nat, 1%nat => 2 * a 5%nat | 2%nat, 2%nat => 2 * a 6%nat
  | 0%nat, 1%nat | 1%nat, 0%nat => a 7%nat
  | 0%nat, 2%nat | 2%nat, 0%nat => a 8%nat
  | 1%nat, 2%nat | 2%nat, 1%nat => a 9%nat
  | _, _ => 0
  end%Q.
Definition gradient (co : list Q) (i : nat) : Q := nth (S i) co 0%Q.
(** Lines 321-324. *)
Definition flip (co : list Q) : Q :=
  if Qltb 0 (hessian co 0 0 + hessian co 1 1 + hessian co 2 2)%Q then (-(1))%Q else 1%Q.

(** Lines 346-358: the fitted polynomial. *)
Definition fitted (co : list Q) (p : vec) : Q :=
  let a := fun n => nth n co 0%Q in let '(x, y, z) := p in
  (a 0%nat + a 1%nat * x + a 2%nat * y + a 3%nat * z + a 4%nat * x * x + a 5%nat * y * y + a 6%nat * z * z
   + a 7%nat * x * y + a 8%nat * x * z + a 9%nat * y * z)%Q.

(** Lines 333-334: row [i] of the lattice divided by [[nx, ny, nz]] along the columns. *)
Definition step_sq (v : vec) : Q :=
  let '(x, y, z) := v in sq_norm (x / inject_Z nx, y / inject_Z ny, z / inject_Z nz)%Q.
Definition qmax (a b : Q) : Q := if Qltb a b then b else a.
Definition max_step : Q :=
  let '(a, b, c) := lattice in qmax (qmax (root (step_sq a)) (root (step_sq b))) (root (step_sq c)).
Definition as_vec (l : list Q) : vec := (nth 0 l 0, nth 1 l 0, nth 2 l 0)%Q.
Definition scale (s : Q) (v : vec) : vec := let '(x, y, z) := v in (x * s, y * s, z * s)%Q.
Definition mod1 (q : Q) : Q := (q - inject_Z (Qfloor q))%Q.

(** [None]: an uncaught [LinAlgError]. *)
Definition refine (f : vec) : option (vec * Q) :=
  let '(fx, fy, fz) := f in
  let c := (py_round (fx * inject_Z nx) mod nx, py_round (fy * inject_Z ny) mod ny, py_round (fz * inject_Z nz) mod nz) in
  match solve 10 normal_matrix (normal_rhs c) with
  | None => None
  | Some co =>
      let s := flip co in
      let off := match solve 3 (fun i j => s * hessian co i j)%Q (fun i => - (s * gradient co i))%Q with
                 | Some x => as_vec x | None => (0, 0, 0)%Q end in
      let norm := root (sq_norm off) in
      let off := if Qltb max_step norm then scale (max_step / norm)%Q off else off in
      let value := fitted co off in
      let region_max := fold_left qmax (map (region c) unit3) (region c (-1, -1, -1)) in
      let '(value, off) := if Qltb value region_max then (region_max, (0, 0, 0)%Q) else (value, off) in
      let '((a0, a1, a2), (b0, b1, b2), (c0, c1, c2)) := lattice in
      let '(ox, oy, oz) := off in
      match solve 3 (fun i j => nth j (nth i [[a0; b0; c0]; [a1; b1; c1]; [a2; b2; c2]] []) 0%Q) (fun i => nth i [ox; oy; oz] 0%Q) with
      | None => None
      | Some fo => Some ((mod1 (fx + nth 0 fo 0), mod1 (fy + nth 1 fo 0), mod1 (fz + nth 2 fo 0))%Q, value)
      end
  end.

(** [refine_maxima], lines 361-377; rounding to six digits. *)
Definition round6 (q : Q) : Q := (inject_Z (py_round (q * inject_Z 1000000)) / inject_Z 1000000)%Q.
Definition refine_maxima (coords : list vec) (order : list nat) (empty : list (option (vec * Q))) : list (option (vec * Q)) :=
  map (option_map (fun r : vec * Q => let '((x, y, z), v) := r in ((mod1 (round6 x), mod1 (round6 y), mod1 (round6 z)), v)))
    (par_loop (fun t => match nth_error coords t with Some f => Some (refine f) | None => None end) order empty).
End Refine.
