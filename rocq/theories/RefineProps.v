(** C27: sub-voxel refinement of maxima. *)
From Verif Require Import Base GridModel NeighSpec ChargeModel ChargeProofs NearModel NearSpec NearProofs SurfaceModel SurfaceProofs InterpProofs RefineModel RefineProofs.
From Coq Require Import ZifyBool ZifyNat Lqa Qround.
Local Open Scope Z_scope.

(** For every exact solver and every root function rounding upwards: the coordinates lie in
    [0,1), the value is not below any of the 27 voxels, and the displacement from the input is
    at most the length of one of the rows of the lattice divided by the shape. *)
Theorem C27_refine : forall solve root nx ny nz grid lattice, 0 < nx -> 0 < ny -> 0 < nz -> sound solve ->
  (forall q, (0 <= q)%Q -> (0 <= root q)%Q /\ (q <= root q * root q)%Q) ->
  forall fx fy fz gx gy gz v, refine solve root nx ny nz grid lattice (fx, fy, fz) = Some ((gx, gy, gz), v) ->
  let '((a0, a1, a2), (b0, b1, b2), (c0, c1, c2)) := lattice in
  (0 <= gx < 1)%Q /\ (0 <= gy < 1)%Q /\ (0 <= gz < 1)%Q /\
  (forall a b c, nearest_even (fx * inject_Z nx) a -> nearest_even (fy * inject_Z ny) b -> nearest_even (fz * inject_Z nz) c ->
    forall d e f, -1 <= d <= 1 -> -1 <= e <= 1 -> -1 <= f <= 1 -> (grid ((a + d) mod nx)%Z ((b + e) mod ny)%Z ((c + f) mod nz)%Z <= v)%Q) /\
  exists p q s, gx = mod1 (fx + p) /\ gy = mod1 (fy + q) /\ gz = mod1 (fz + s) /\
    exists x y z, ((x, y, z) = (a0, a1, a2) \/ (x, y, z) = (b0, b1, b2) \/ (x, y, z) = (c0, c1, c2)) /\
    let step := root (sq_norm (x / inject_Z nx, y / inject_Z ny, z / inject_Z nz)%Q) in
    (sq_norm (p * a0 + q * b0 + s * c0, p * a1 + q * b1 + s * c1, p * a2 + q * b2 + s * c2) <= step * step)%Q.
Proof.
  intros solve root nx ny nz grid lattice Hx Hy Hz SO RO fx fy fz gx gy gz v H.
  destruct (refine_spec solve root nx ny nz grid lattice SO RO (fx, fy, fz) _ H) as (co & [[ox oy] oz] & [[p q] s] & K). cbn [fst snd] in K.
  destruct lattice as [[[[a0 a1] a2] [[b0 b1] b2]] [[c0 c1] c2]]. destruct K as (_ & B & E0 & E1 & E2 & F & _ & M). injection F as -> -> ->.
  split; [apply mod1_range|]. split; [apply mod1_range|]. split; [apply mod1_range|]. split.
  - intros a b c Ha Hb Hc d e f Hd He Hf.
    rewrite (nearest_even_fun _ _ _ _ (Qeq_refl _) (py_round_spec _) Ha), (nearest_even_fun _ _ _ _ (Qeq_refl _) (py_round_spec _) Hb), (nearest_even_fun _ _ _ _ (Qeq_refl _) (py_round_spec _) Hc) in M.
    specialize (M (d, e, f) (proj2 (unit3_spec d e f) (conj Hd (conj He Hf)))). cbn [region] in M. rewrite !Zplus_mod_idemp_l in M. exact M.
  - exists p, q, s. split; [reflexivity|]. split; [reflexivity|]. split; [reflexivity|].
    assert (B' : (sq_norm (p * a0 + q * b0 + s * c0, p * a1 + q * b1 + s * c1, p * a2 + q * b2 + s * c2) <= max_step root nx ny nz ((a0, a1, a2), (b0, b1, b2), (c0, c1, c2)) * max_step root nx ny nz ((a0, a1, a2), (b0, b1, b2), (c0, c1, c2)))%Q) by (cbn [sq_norm] in *; rewrite E0, E1, E2; exact B).
    clear - B'. unfold max_step in B'. revert B'. unfold qmax. destruct (Qltb (root (step_sq nx ny nz (a0, a1, a2))) (root (step_sq nx ny nz (b0, b1, b2))));
      match goal with |- context [Qltb ?u ?w] => destruct (Qltb u w) end; intros B';
      [exists c0, c1, c2|exists b0, b1, b2|exists c0, c1, c2|exists a0, a1, a2]; (split; [auto|exact B']).
Qed.
Print Assumptions C27_refine.

(** A neighbourhood symmetric under inversion leaves the position unchanged. *)
Theorem C27_symmetric : forall solve root nx ny nz grid lattice, 0 < nx -> 0 < ny -> 0 < nz -> sound solve ->
  forall fx fy fz r a b c, refine solve root nx ny nz grid lattice (fx, fy, fz) = Some r ->
  nearest_even (fx * inject_Z nx) a -> nearest_even (fy * inject_Z ny) b -> nearest_even (fz * inject_Z nz) c ->
  (forall d e f, -1 <= d <= 1 -> -1 <= e <= 1 -> -1 <= f <= 1 ->
    (grid ((a - d) mod nx)%Z ((b - e) mod ny)%Z ((c - f) mod nz)%Z == grid ((a + d) mod nx)%Z ((b + e) mod ny)%Z ((c + f) mod nz)%Z)%Q) ->
  let '(gx, gy, gz) := fst r in (gx == mod1 fx /\ gy == mod1 fy /\ gz == mod1 fz)%Q.
Proof.
  intros solve root nx ny nz grid lattice Hx Hy Hz SO fx fy fz r a b c H Ha Hb Hc SYM.
  apply (refine_symmetric solve root nx ny nz grid lattice SO (fx, fy, fz) r H). cbn [fst snd].
  rewrite (nearest_even_fun _ _ _ _ (Qeq_refl _) (py_round_spec _) Ha), (nearest_even_fun _ _ _ _ (Qeq_refl _) (py_round_spec _) Hb), (nearest_even_fun _ _ _ _ (Qeq_refl _) (py_round_spec _) Hc).
  intros [[d e] f] Ho. apply unit3_spec in Ho as (Hd & He & Hf). cbn [region neg3]. rewrite !Zplus_mod_idemp_l. apply SYM; assumption.
Qed.
Print Assumptions C27_symmetric.

Lemma round6_near x : exists m, (Qabs.Qabs (mod1 (round6 x) - (x + inject_Z m)) <= 1 # 2000000)%Q.
Proof.
  exists (- Qfloor (round6 x)). unfold mod1. rewrite inject_Z_opp.
  assert (E2 : (round6 x - inject_Z (Qfloor (round6 x)) - (x + - inject_Z (Qfloor (round6 x))) == round6 x - x)%Q) by ring. rewrite E2.
  unfold round6. destruct (py_round_spec (x * inject_Z 1000000)) as [[A B] _]. generalize dependent (py_round (x * inject_Z 1000000)). intros m A B.
  change (inject_Z 1000000) with 1000000%Q in *. apply Qabs.Qabs_Qle_condition. assert (E3 : (inject_Z m / 1000000 == inject_Z m * (1 # 1000000))%Q) by field. rewrite E3. split; lra.
Qed.
(** The list version refines every maximum independently of the order of the loop. *)
Theorem C27_maxima : forall solve root nx ny nz grid lattice coords order empty, length empty = length coords ->
  (forall t, (t < length coords)%nat -> In t order) ->
  let r := refine_maxima solve root nx ny nz grid lattice coords order empty in
  length r = length coords /\
  forall t f, nth_error coords t = Some f -> match refine solve root nx ny nz grid lattice f with
    | None => nth_error r t = Some None
    | Some ((x, y, z), v) => exists x' y' z', nth_error r t = Some (Some ((x', y', z'), v)) /\ (0 <= x' < 1)%Q /\ (0 <= y' < 1)%Q /\ (0 <= z' < 1)%Q /\
        let near := fun a b => exists m, (Qabs.Qabs (a - (b + inject_Z m)) <= 1 # 2000000)%Q in near x' x /\ near y' y /\ near z' z
    end.
Proof.
  intros solve root nx ny nz grid lattice coords order empty L H r. unfold refine_maxima in r.
  split; [unfold r; now rewrite map_length, par_loop_length|]. intros t f Hf.
  assert (Lt : (t < length coords)%nat) by (apply nth_error_Some; congruence).
  assert (E : nth_error (par_loop (fun t => match nth_error coords t with Some f => Some (refine solve root nx ny nz grid lattice f) | None => None end) order empty) t = Some (refine solve root nx ny nz grid lattice f)).
  { rewrite (nth_error_nth_lt _ t None) by (rewrite par_loop_length; lia). rewrite par_loop_nth by lia. rewrite Hf.
    assert (existsb (Nat.eqb t) order = true) as -> by (apply existsb_exists; exists t; split; [now apply H|apply Nat.eqb_refl]). reflexivity. }
  unfold r. rewrite nth_error_map, E. destruct (refine solve root nx ny nz grid lattice f) as [[[[x y] z] v]|]; [|reflexivity]. cbn [option_map].
  do 3 eexists. split; [reflexivity|]. split; [apply mod1_range|]. split; [apply mod1_range|]. split; [apply mod1_range|].
  cbn zeta. repeat split; apply round6_near.
Qed.
Print Assumptions C27_maxima.

(** ** Failures *)
(** A rational root, exact on squares and rounded up otherwise. *)
Definition rt (q : Q) : Q := (Z.sqrt_up (Qnum q * Zpos (Qden q) * 1000000) # (Qden q * 1000))%Q.
Lemma rt_spec : forall q, (0 <= q)%Q -> (0 <= rt q)%Q /\ (q <= rt q * rt q)%Q.
Proof.
  intros [n d] H. unfold Qle in H. cbn in H. unfold rt. cbn [Qnum Qden]. pose proof (Z.sqrt_up_nonneg (n * Zpos d * 1000000)) as P. split; [unfold Qle; cbn; lia|].
  unfold Qle. cbn [Qmult Qnum Qden]. rewrite !Pos2Z.inj_mul.
  destruct (Z.eq_dec n 0) as [->|N]; [lia|].
  pose proof (Z.sqrt_up_spec (n * Zpos d * 1000000) ltac:(lia)) as [_ S]. set (s := Z.sqrt_up _) in *. clearbody s. nia.
Qed.
Definition test (r : option (vec * Q)) (f : Q -> Q -> Q -> Q -> bool) : bool := match r with Some ((x, y, z), v) => f x y z v | None => false end.
Lemma test_true r f : test r f = true -> exists x y z v, r = Some ((x, y, z), v) /\ f x y z v = true.
Proof. destruct r as [[[[x y] z] v]|]; [|discriminate]. intros H. exists x, y, z, v. auto. Qed.
(** The clamp divides the columns of the lattice by the shape instead of the rows, so it can be
    larger than a voxel: here every voxel edge has length 1 and the maximum moves by more than 2. *)
Definition bad_cell : mat := ((0, 0, 12), (0, 12, 0), (4, 0, 0))%Q.
Definition bad_data : arr3 Q := fun i j k =>
  if i =? 0 then (if (j =? 0) && (k =? 0) then 1%Q else 55 # 100) else if i =? 1 then 99 # 100 else 0%Q.
Theorem C136_step_refuted : exists nx ny nz grid lattice gx gy gz v,
  sound np_solve /\ (forall q, (0 <= q)%Q -> (0 <= rt q)%Q /\ (q <= rt q * rt q)%Q) /\
  (let '(a, b, c) := lattice in sq_norm (scale (1 / inject_Z nx) a) == 1 /\ sq_norm (scale (1 / inject_Z ny) b) == 1 /\ sq_norm (scale (1 / inject_Z nz) c) == 1)%Q /\
  (forall i j k, in_grid nx ny nz (i, j, k) -> (i, j, k) <> (0, 0, 0) -> (grid i j k < grid 0%Z 0%Z 0%Z)%Q) /\
  refine np_solve rt nx ny nz grid lattice (0, 0, 0)%Q = Some ((gx, gy, gz), v) /\
  (2 < gx * inject_Z nx < 3)%Q /\ (gy == 0)%Q /\ (gz == 0)%Q.
Proof.
  exists 12, 12, 4, bad_data, bad_cell.
  assert (K : test (refine np_solve rt 12 12 4 bad_data bad_cell (0, 0, 0)%Q)
    (fun gx gy gz v => Qltb 2 (gx * inject_Z 12) && Qltb (gx * inject_Z 12) 3 && Qeq_bool gy 0 && Qeq_bool gz 0) = true) by (vm_compute; reflexivity).
  apply test_true in K as (gx & gy & gz & v & E & K). rewrite !andb_true_iff, !Qltb_lt, !Qeq_bool_iff in K.
  exists gx, gy, gz, v. split; [exact np_solve_sound|]. split; [exact rt_spec|]. split; [repeat split|]. split.
  { intros i j k _ N. unfold bad_data. cbn [Z.eqb andb]. destruct (i =? 0) eqn:Ei; [destruct ((j =? 0) && (k =? 0)) eqn:Ej; [|reflexivity]|destruct (i =? 1); reflexivity].
    exfalso. apply N. f_equal; [f_equal|]; lia. }
  split; [exact E|]. tauto.
Qed.
Print Assumptions C136_step_refuted.

(** The fit is centred at the nearest voxel but its offset is added to the input coordinates:
    an input between voxels keeps its distance from the fitted maximum. *)
Definition peak_data : arr3 Q := fun i j k => if (i =? 0) && (j =? 0) && (k =? 0) then 1%Q else 0%Q.
Theorem C137_offgrid_refuted : exists grid lattice f r,
  refine np_solve rt 10 10 10 grid lattice (f, 0, 0)%Q = Some r /\
  (forall d e g, -1 <= d <= 1 -> -1 <= e <= 1 -> -1 <= g <= 1 -> (grid ((0 - d) mod 10)%Z ((0 - e) mod 10)%Z ((0 - g) mod 10)%Z == grid ((0 + d) mod 10)%Z ((0 + e) mod 10)%Z ((0 + g) mod 10)%Z)%Q) /\
  ~ (fst (fst (fst r)) == 0)%Q.
Proof.
  exists peak_data, ((10, 0, 0), (0, 10, 0), (0, 0, 10))%Q, (1 # 25)%Q.
  assert (K : test (refine np_solve rt 10 10 10 peak_data ((10, 0, 0), (0, 10, 0), (0, 0, 10))%Q ((1 # 25), 0, 0)%Q) (fun gx gy gz v => negb (Qeq_bool gx 0)) = true) by (vm_compute; reflexivity).
  apply test_true in K as (gx & gy & gz & v & E & K).
  exists ((gx, gy, gz), v). split; [exact E|]. split.
  - intros d e g Hd He Hg. assert (d = -1 \/ d = 0 \/ d = 1) as [-> |[-> | ->]] by lia; assert (e = -1 \/ e = 0 \/ e = 1) as [-> |[-> | ->]] by lia; assert (g = -1 \/ g = 0 \/ g = 1) as [-> |[-> | ->]] by lia; reflexivity.
  - cbn [fst]. intros Z0. apply Qeq_bool_iff in Z0. rewrite Z0 in K. discriminate.
Qed.
Print Assumptions C137_offgrid_refuted.

(** A peak with unequal neighbours moves towards the higher one, by less than a voxel. *)
Definition tilted_data : arr3 Q := fun i j k =>
  if negb ((i =? 0) || (i =? 1) || (i =? 7)) then 0%Q else
  (10 - (if i =? 0 then 0 else if i =? 1 then 1 else 2) - (if j =? 0 then 0 else 1) - (if k =? 0 then 0 else 1))%Q.
Example C27_ex : exists gx gy gz v, refine np_solve rt 8 8 8 tilted_data ((8, 0, 0), (0, 8, 0), (0, 0, 8))%Q (0, 0, 0)%Q = Some ((gx, gy, gz), v) /\
  (0 < gx * 8 < 1)%Q /\ (gy == 0)%Q /\ (gz == 0)%Q /\ (10 <= v)%Q.
Proof.
  assert (K : test (refine np_solve rt 8 8 8 tilted_data ((8, 0, 0), (0, 8, 0), (0, 0, 8))%Q (0, 0, 0)%Q)
    (fun gx gy gz v => Qltb 0 (gx * 8) && Qltb (gx * 8) 1 && Qeq_bool gy 0 && Qeq_bool gz 0 && Qle_bool 10 v) = true) by (vm_compute; reflexivity).
  apply test_true in K as (gx & gy & gz & v & E & K). rewrite !andb_true_iff, !Qltb_lt, !Qeq_bool_iff, Qle_bool_iff in K. exists gx, gy, gz, v. destruct K as [[[[K1 K2] K3] K4] K5]. split; [exact E|]. split; [split; assumption|]. split; [assumption|]. split; assumption.
Qed.
