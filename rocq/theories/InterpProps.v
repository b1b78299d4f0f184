(** C25 and C26: interpolation. *)
From Verif Require Import Base GridModel NeighSpec NearModel NearSpec NearProofs InterpModel InterpProofs.
From Coq Require Import ZifyBool ZifyNat Lqa Qround Qabs.
Local Open Scope Z_scope.

(** ** C25 *)
(** Inside a cell of eight voxels, faces included, the value is the trilinear blend of the corners,
    for coordinates up to one cell outside the unit cell. *)
Theorem C25_trilinear : forall nx ny nz, 0 < nx -> 0 < ny -> 0 < nz -> forall data (a b c : Z) (ta tb tc : Q),
  (0 <= ta <= 1)%Q -> (0 <= tb <= 1)%Q -> (0 <= tc <= 1)%Q ->
  (- inject_Z nx <= inject_Z a + ta /\ inject_Z a + ta < 2 * inject_Z nx)%Q ->
  (- inject_Z ny <= inject_Z b + tb /\ inject_Z b + tb < 2 * inject_Z ny)%Q ->
  (- inject_Z nz <= inject_Z c + tc /\ inject_Z c + tc < 2 * inject_Z nz)%Q ->
  (interp_linear nx ny nz data (inject_Z a + ta) (inject_Z b + tb) (inject_Z c + tc) false ==
   qsum (map (fun o : Z * Z * Z => w2 (fst (fst o)) ta * w2 (snd (fst o)) tb * w2 (snd o) tc *
     data ((a + fst (fst o)) mod nx)%Z ((b + snd (fst o)) mod ny)%Z ((c + snd o) mod nz)%Z) corners8))%Q.
Proof. intros. apply linear_correct; assumption. Qed.
Print Assumptions C25_trilinear.

(** Stored values are returned at grid points. *)
Theorem C25_grid_points : forall nx ny nz, 0 < nx -> 0 < ny -> 0 < nz -> forall data a b c,
  in_grid nx ny nz (a, b, c) ->
  (interp_linear nx ny nz data (inject_Z a) (inject_Z b) (inject_Z c) false == data a b c)%Q /\
  (interp_linear nx ny nz data (inject_Z a / inject_Z nx) (inject_Z b / inject_Z ny) (inject_Z c / inject_Z nz) true == data a b c)%Q /\
  interp_nearest nx ny nz data (inject_Z a) (inject_Z b) (inject_Z c) false = data a b c /\
  interp_nearest nx ny nz data (inject_Z a / inject_Z nx) (inject_Z b / inject_Z ny) (inject_Z c / inject_Z nz) true = data a b c.
Proof.
  intros nx ny nz Hx Hy Hz data a b c (A & B & C). cbn in A, B, C.
  assert (L : (interp_linear nx ny nz data (inject_Z a) (inject_Z b) (inject_Z c) false == data a b c)%Q).
  { assert (P : forall n z F, 0 <= z < n -> (lin1 n F (inject_Z z) == F z)%Q).
    { intros n z F H. assert (E : (inject_Z z == inject_Z z + 0)%Q) by ring. etransitivity; [apply lin1_mor, E|]. rewrite lin1_open by (lia || lra). unfold per. rewrite Z.mod_small by lia. ring. }
    rewrite linear_nested. cbn [to_voxel]. etransitivity; [apply P; lia|]. etransitivity; [apply P; lia|]. apply P; lia. }
  assert (V : forall z n, 0 < n -> (inject_Z z / inject_Z n * inject_Z n == inject_Z z)%Q).
  { intros z n H. field. intros E. change 0%Q with (inject_Z 0) in E. apply (proj1 (inject_Z_injective _ _)) in E. lia. }
  assert (R : forall z, py_round (inject_Z z) = z).
  { intros z. apply (nearest_even_fun (inject_Z z) (inject_Z z)); [reflexivity|apply py_round_spec|]. split; [split; lra|]. intros [H|H]; lra. }
  split; [exact L|]. split.
  { rewrite <- L, !linear_nested. cbn [to_voxel]. etransitivity; [apply lin1_mor, V, Hx|]. apply lin1_ext. intros. etransitivity; [apply lin1_mor, V, Hy|]. apply lin1_ext. intros. apply lin1_mor, V, Hz. }
  unfold interp_nearest. cbn [to_voxel]. rewrite (py_round_comp _ _ (V a nx Hx)), (py_round_comp _ _ (V b ny Hy)), (py_round_comp _ _ (V c nz Hz)). rewrite !R, !Z.mod_small by lia. auto.
Qed.
Print Assumptions C25_grid_points.

(** The value lies between the extremes of the eight surrounding voxels. *)
Theorem C25_bounded : forall nx ny nz, 0 < nx -> 0 < ny -> 0 < nz -> forall data i j k lo hi,
  (- inject_Z nx <= i < 2 * inject_Z nx)%Q -> (- inject_Z ny <= j < 2 * inject_Z ny)%Q -> (- inject_Z nz <= k < 2 * inject_Z nz)%Q ->
  (forall a b c, (a = Qfloor i mod nx \/ a = (Qfloor i + 1) mod nx) -> (b = Qfloor j mod ny \/ b = (Qfloor j + 1) mod ny) ->
    (c = Qfloor k mod nz \/ c = (Qfloor k + 1) mod nz) -> (lo <= data a b c <= hi)%Q) ->
  (lo <= interp_linear nx ny nz data i j k false <= hi)%Q.
Proof. exact linear_bounded. Qed.
Print Assumptions C25_bounded.

(** Shifting by whole cells changes nothing as long as the coordinates stay within one cell of the unit cell. *)
Theorem C25_periodic : forall nx ny nz, 0 < nx -> 0 < ny -> 0 < nz -> forall data (i j k : Q) (a b c : Z) (fr : bool),
  let u := fun n : Z => if fr then 1%Q else inject_Z n in
  let v := fun s n : Z => inject_Z (if fr then s else s * n) in
  (- u nx <= i < 2 * u nx)%Q -> (- u ny <= j < 2 * u ny)%Q -> (- u nz <= k < 2 * u nz)%Q ->
  (- u nx <= i + v a nx < 2 * u nx)%Q -> (- u ny <= j + v b ny < 2 * u ny)%Q -> (- u nz <= k + v c nz < 2 * u nz)%Q ->
  (interp_linear nx ny nz data (i + v a nx) (j + v b ny) (k + v c nz) fr == interp_linear nx ny nz data i j k fr)%Q.
Proof. exact linear_periodic. Qed.
Print Assumptions C25_periodic.

(** The nearest voxel: rounding to nearest, periodic except halfway between voxels. *)
Theorem C25_nearest : forall nx ny nz, 0 < nx -> 0 < ny -> 0 < nz -> forall data i j k,
  (exists a b c, nearest_even i a /\ nearest_even j b /\ nearest_even k c /\
    interp_nearest nx ny nz data i j k false = data (a mod nx) (b mod ny) (c mod nz)) /\
  (let half := fun q => (q - inject_Z (Qfloor q) == 1 # 2)%Q in ~ half i -> ~ half j -> ~ half k -> forall a b c,
   interp_nearest nx ny nz data (i + inject_Z (a * nx)) (j + inject_Z (b * ny)) (k + inject_Z (c * nz)) false = interp_nearest nx ny nz data i j k false).
Proof.
  intros nx ny nz Hx Hy Hz data i j k. split; [|intros half A B C a b c; now apply nearest_periodic].
  exists (py_round i), (py_round j), (py_round k). repeat split; try apply py_round_spec; reflexivity.
Qed.
Print Assumptions C25_nearest.

(** Every point of a list is interpolated independently, by the method asked for, in whatever order the loop runs. *)
Definition value_by (m : method) (nx ny nz : Z) (data : arr3 Q) (p : Q * Q * Q) (fr : bool) (q : Q) : Prop :=
  let '(i, j, k) := p in
  (m = Nearest -> q = interp_nearest nx ny nz data i j k fr) /\ (m = Linear -> q = interp_linear nx ny nz data i j k fr) /\
  (m = Cubic -> q = interp_spline nx ny nz data i j k fr).
Lemma value_by_interpolate m nx ny nz data p fr : value_by m nx ny nz data p fr (interpolate m nx ny nz data p fr).
Proof. destruct p as [[i j] k]. unfold value_by. destruct m; repeat split; intros H; try discriminate H; reflexivity. Qed.
Theorem C25_points : forall points m nx ny nz data fr order empty, length empty = length points ->
  (forall t, (t < length points)%nat -> In t order) ->
  Forall2 (fun p q => value_by m nx ny nz data p fr q) points (interpolate_points points m nx ny nz data fr order empty).
Proof.
  intros points m nx ny nz data fr order empty L O. rewrite points_correct by assumption. clear. induction points as [|p l IH]; constructor; [apply value_by_interpolate|exact IH].
Qed.
Print Assumptions C25_points.

Theorem C25_slice : forall nx ny nz data x1 y1 z1 x2 y2 z2 n fr m order empty, (2 <= n)%nat -> length empty = n -> (forall t, (t < n)%nat -> In t order) ->
  let r := linear_slice nx ny nz data (x1, y1, z1) (x2, y2, z2) n fr m order empty in
  length r = n /\ forall t, (t < n)%nat -> let s := (inject_Z (Z.of_nat t) / inject_Z (Z.of_nat n - 1))%Q in
    value_by m nx ny nz data (x1 + (x2 - x1) * s, y1 + (y2 - y1) * s, z1 + (z2 - z1) * s)%Q fr (nth t r 0%Q).
Proof.
  intros nx ny nz data x1 y1 z1 x2 y2 z2 n fr m order empty N L O r. destruct (slice_correct nx ny nz data x1 y1 z1 x2 y2 z2 n fr m order empty N L O) as [A B]. split; [exact A|].
  intros t T s. specialize (B t T). fold r in B. rewrite B. apply value_by_interpolate.
Qed.
Print Assumptions C25_slice.

(** [interp_linear] wraps only once: two cells away it reads outside the array. *)
Theorem C134_far_refuted : exists nx ny nz data data' i,
  (forall v, in_grid nx ny nz v -> value_at data v = value_at data' v) /\
  ~ (interp_linear nx ny nz data i 0 0 false == interp_linear nx ny nz data' i 0 0 false)%Q.
Proof.
  exists 4, 4, 4, (fun _ _ _ => 0%Q), (fun a _ _ => if a <? 4 then 0%Q else 1%Q), 9%Q. split.
  - intros [[a b] c] (A & _). cbn in *. destruct (a <? 4) eqn:E; [reflexivity|lia].
  - vm_compute. discriminate.
Qed.
Print Assumptions C134_far_refuted.

(** [interp_nearest] rounds halves to even, so on an odd grid a shift by one cell changes the voxel. *)
Theorem C135_nearest_half_refuted : exists nx ny nz data i,
  interp_nearest nx ny nz data (i + inject_Z nx) 0 0 false <> interp_nearest nx ny nz data i 0 0 false.
Proof. exists 3, 3, 3, (fun a _ _ => inject_Z a), (1 # 2)%Q. vm_compute. discriminate. Qed.
Print Assumptions C135_nearest_half_refuted.

Definition ex_grid : arr3 Q := fun i j k => inject_Z (i * 100 + j * 10 + k).
Example C25_ex : (interp_linear 3 4 5 ex_grid (5 # 2) (1 # 2) (17 # 4) false == 50 * 4 - 100 + 5 + (3 # 4) * 4)%Q /\
  (interp_linear 3 4 5 ex_grid (-(1 # 2)) 0 0 false == 100)%Q /\ interp_nearest 3 4 5 ex_grid (-(1 # 4)) (13 # 10) 7 false = 12%Q.
Proof. repeat split. Qed.

(** ** C26 *)
(** The weights are non-negative and reproduce cubic polynomials as cubic B-splines do;
    the four moments determine them. *)
Theorem C26_weights : forall d, (0 <= d <= 1)%Q ->
  let m := fun p : Q -> Q => qsum (map (fun o => bspline_weight o d * p (inject_Z (o - 1)))%Q [0; 1; 2; 3]) in
  (forall o, In o [0; 1; 2; 3] -> (0 <= bspline_weight o d)%Q) /\
  (m (fun _ => 1) == 1)%Q /\ (m (fun x => x) == d)%Q /\ (m (fun x => x * x) == d * d + (1 # 3))%Q /\ (m (fun x => x * x * x) == d * d * d + d)%Q.
Proof.
  intros d H m. split; [intros o Ho; now apply weights_nonneg|].
  destruct (weights_val d H) as (A0 & A1 & A2 & A3). unfold m. cbn [map qsum fold_right].
  change (inject_Z (0 - 1)) with (-(1))%Q. change (inject_Z (1 - 1)) with 0%Q. change (inject_Z (2 - 1)) with 1%Q. change (inject_Z (3 - 1)) with 2%Q.
  revert A0 A1 A2 A3. generalize (bspline_weight 0 d), (bspline_weight 1 d), (bspline_weight 2 d), (bspline_weight 3 d). intros w0 w1 w2 w3 A0 A1 A2 A3.
  assert (K : forall a b c e, (w0 * a + (w1 * b + (w2 * c + (w3 * e + 0))) ==
    (1 - d) * (1 - d) * (1 - d) / 6 * a + ((4 - 6 * d * d + 3 * d * d * d) / 6 * b + ((1 + 3 * d + 3 * d * d - 3 * d * d * d) / 6 * c + (d * d * d / 6 * e + 0))))%Q).
  { intros. repeat apply Qplus_comp; try reflexivity; (apply Qmult_comp; [assumption|reflexivity]). }
  repeat split; (etransitivity; [apply K|field]).
Qed.
Print Assumptions C26_weights.

(** The value is the weighted sum of the surrounding four by four by four coefficients of the
    periodic grid, continuous over voxel faces. *)
Theorem C26_blend : forall nx ny nz, 0 < nx -> 0 < ny -> 0 < nz -> forall data (a b c : Z) (ta tb tc : Q),
  (0 <= ta <= 1 -> 0 <= tb <= 1 -> 0 <= tc <= 1 ->
  interp_spline nx ny nz data (inject_Z a + ta) (inject_Z b + tb) (inject_Z c + tc) false ==
  qsum (map (fun y => bspline_weight y tb * qsum (map (fun z => bspline_weight z tc * qsum (map (fun x => bspline_weight x ta *
    data ((a - 1 + x) mod nx)%Z ((b - 1 + y) mod ny)%Z ((c - 1 + z) mod nz)%Z) offs4)) offs4)) offs4))%Q.
Proof. exact spline_correct. Qed.
Print Assumptions C26_blend.

Theorem C26_bounded : forall nx ny nz, 0 < nx -> 0 < ny -> 0 < nz -> forall data i j k fr lo hi,
  (forall a b c, 0 <= a < nx -> 0 <= b < ny -> 0 <= c < nz -> (lo <= data a b c <= hi)%Q) ->
  (lo <= interp_spline nx ny nz data i j k fr <= hi)%Q.
Proof. exact spline_bounded. Qed.
Print Assumptions C26_bounded.

Theorem C26_constant : forall nx ny nz, 0 < nx -> 0 < ny -> 0 < nz -> forall data i j k fr v,
  (forall a b c, 0 <= a < nx -> 0 <= b < ny -> 0 <= c < nz -> (data a b c == v)%Q) ->
  (interp_spline nx ny nz data i j k fr == v)%Q.
Proof.
  intros nx ny nz Hx Hy Hz data i j k fr v H. assert (B : (v <= interp_spline nx ny nz data i j k fr <= v)%Q).
  { apply spline_bounded; auto. intros a b c A B C. specialize (H a b c A B C). lra. }
  lra.
Qed.
Print Assumptions C26_constant.

Theorem C26_periodic : forall nx ny nz, 0 < nx -> 0 < ny -> 0 < nz -> forall data (i j k : Q) (a b c : Z) (fr : bool),
  (interp_spline nx ny nz data (i + inject_Z (if fr then a else a * nx)) (j + inject_Z (if fr then b else b * ny)) (k + inject_Z (if fr then c else c * nz)) fr
    == interp_spline nx ny nz data i j k fr)%Q.
Proof. exact spline_periodic. Qed.
Print Assumptions C26_periodic.

Example C26_ex : (bspline_weight 0 (1 # 2) == 1 # 48 /\ bspline_weight 1 (1 # 2) == 23 # 48 /\ bspline_weight 2 (1 # 2) == 23 # 48 /\ bspline_weight 3 (1 # 2) == 1 # 48)%Q /\
  (interp_spline 6 6 6 ex_grid (5 # 2) (5 # 2) (5 # 2) false == (5 # 2) * 111)%Q.
Proof. repeat split. Qed.
