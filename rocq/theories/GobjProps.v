(** Properties of the [Grid] object. *)
From Coq Require Import QArith Qround Qabs Lqa.
From Verif Require Import Base GridModel GridProofs ChargeModel NearModel NearProofs RefineModel RefineProofs PlaneModel InterpProofs CoordModel CoordProofs GobjModel GobjProofs.
Local Open Scope Z_scope.

(** C24: after any history every quantity cleared by the setters describes the current data and lattice. *)
Theorem C24_caches spline zoom root m d a f t g0 os :
  make_grid m d a f t = Some g0 -> let g := run spline zoom root g0 os in let '(nx, ny, nz) := a_shape (total g) in
  fst (read_indices g) = voxels nx ny nz /\
  fst (read_flat g) = map Z.of_nat (seq 0 (Z.to_nat (nx * ny * nz))) /\
  fst (read_dists root g) = dists_of root (g_matrix g) (nx, ny, nz) /\
  fst (read_far root g) = max_point_dist nx ny nz (g_matrix g) root /\
  fst (read_images g) = grid_neighbor_transforms nx ny nz.
Proof.
  intros M g. assert (F : fresh root g) by (apply fresh_run; eapply fresh_make; exact M). fold (shape g).
  rewrite (proj1 (read_indices_spec root g F)), (proj1 (read_flat_spec root g F)), (proj1 (read_dists_spec root g F)), (proj1 (read_far_spec root g F)), (proj1 (read_images_spec root g F)).
  destruct (shape g) as [[nx ny] nz]. repeat split; reflexivity.
Qed.

(** A new grid: its data are those given, the flags count the arrays, and a data type that is not given is guessed from
    the range of the values. *)
Lemma a_max_le a q : let '(x, y, z) := a_shape a in 0 < x -> 0 < y -> 0 < z -> (a_max a <= q)%Q <-> forall i j k, 0 <= i < x -> 0 <= j < y -> 0 <= k < z -> (a_at a i j k <= q)%Q.
Proof.
  unfold a_max. destruct (a_shape a) as [[x y] z]. intros X Y Z0. set (f := fun '(i, j, k) => a_at a i j k).
  assert (I : forall i j k, 0 <= i < x -> 0 <= j < y -> 0 <= k < z -> In (a_at a i j k) (map f (voxels x y z))). { intros i j k A B C. apply in_map_iff. exists (i, j, k). split; [reflexivity|]. apply in_voxels. cbn. lia. }
  assert (J : forall v, In v (map f (voxels x y z)) -> exists i j k, v = a_at a i j k /\ 0 <= i < x /\ 0 <= j < y /\ 0 <= k < z). { intros v H. apply in_map_iff in H as ([[i j] k] & <- & H). apply in_voxels in H. cbn in H. exists i, j, k. repeat split; try reflexivity; lia. }
  destruct (map f (voxels x y z)) as [|v l] eqn:E; [exfalso; apply (I 0 0 0); lia|]. destruct (fold_qmax l v) as (M1 & M2 & M3). split.
  - intros H i j k A B C. destruct (I i j k A B C) as [<-|K]; [lra|]. specialize (M2 _ K). lra.
  - intros H. assert (K : In (fold_left qmax l v) (v :: l)) by (destruct M3 as [->|M3]; [now left|now right]). destruct (J _ K) as (i & j & k & -> & A & B & C). auto.
Qed.
Theorem C24_made m d a f ty : (make_grid m d a f ty = None <-> lookup Total d = None) /\
  forall g, make_grid m d a f ty = Some g -> g_matrix g = m /\ g_data g = d /\ g_aug g = a /\ g_format g = f /\
    (g_polarized g = true <-> (2 <= length d)%nat) /\ (g_soc g = true <-> (4 <= length d)%nat) /\
    exists t, lookup Total d = Some t /\ let '(x, y, z) := a_shape t in g_ngridpts g = x * y * z /\
      match ty with
      | Some k => g_type g = k
      | None => 0 < x -> 0 < y -> 0 < z -> (g_type g = Elf <-> forall i j k, 0 <= i < x -> 0 <= j < y -> 0 <= k < z -> (0 <= a_at t i j k <= 1)%Q)
      end.
Proof.
  unfold make_grid. destruct (lookup Total d) as [t|]; [|split; [tauto|discriminate]]. split; [split; discriminate|].
  intros g E. assert (E1 : forall (u v : grid), Some u = Some v -> u = v) by congruence. apply E1 in E. subst g. clear E1. cbn [g_matrix g_data g_aug g_format g_polarized g_soc g_ngridpts g_type]. repeat (split; [reflexivity|]). split; [apply Nat.leb_le|]. split; [apply Nat.leb_le|]. exists t. split; [reflexivity|].
  pose proof (a_max_le t 1) as HI. pose proof (a_max_le (a_map Qopp t) 0) as LO. unfold a_min. cbn [a_map a_shape] in LO. unfold size_of. destruct (a_shape t) as [[x y] z] eqn:S. split; [reflexivity|].
  destruct ty as [k|]; [reflexivity|]. intros X Y Z0. specialize (HI X Y Z0). specialize (LO X Y Z0). cbn [a_map a_at] in LO.
  assert (B : Qle_bool (a_max t) 1 && Qle_bool 0 (- a_max (a_map Qopp t)) = true <-> forall i j k, 0 <= i < x -> 0 <= j < y -> 0 <= k < z -> (0 <= a_at t i j k <= 1)%Q).
  { rewrite andb_true_iff, !Qle_bool_iff. split.
    - intros [H1 H2] i j k A B C. assert (H3 : (a_max (a_map Qopp t) <= 0)%Q) by lra. rewrite HI in H1. rewrite LO in H3. specialize (H1 i j k A B C). specialize (H3 i j k A B C). lra.
    - intros H. split; [apply HI; intros i j k A B C; apply H; auto|]. assert (H3 : (a_max (a_map Qopp t) <= 0)%Q) by (apply LO; intros i j k A B C; specialize (H i j k A B C); lra). lra. }
  unfold a_map in *. destruct (Qle_bool _ 1 && _); [split; [tauto|reflexivity]|split; [discriminate|intros H; apply B in H; discriminate]].
Qed.
Example C24_made_ex : option_map (fun g => (g_type g, g_polarized g, g_soc g, g_ngridpts g)) (make_grid ((1, 0, 0), (0, 1, 0), (0, 0, 1))%Q [(Total, Arr (2, 1, 3) (fun i _ _ => inject_Z i)); (Diff, Arr (2, 1, 3) (fun _ _ _ => 5%Q))] [] Cube None) = Some (Elf, true, false, 6) /\
  option_map g_type (make_grid ((1, 0, 0), (0, 1, 0), (0, 0, 1))%Q [(Total, Arr (2, 1, 3) (fun _ _ k => inject_Z k))] [] Cube None) = Some Charge /\
  option_map g_type (make_grid ((1, 0, 0), (0, 1, 0), (0, 0, 1))%Q [(Total, Arr (2, 1, 3) (fun _ _ k => inject_Z (- k)))] [] Cube None) = Some Charge.
Proof. vm_compute. auto. Qed.
Print Assumptions C24_made.

(** The distances to the neighbours are never cleared; they stay right as long as assignments keep the shape
    and [make_supercell] succeeds. *)
Theorem C24_neighbours spline zoom root m d a f t g0 os :
  (forall p q, (p == q)%Q -> (root p == root q)%Q) -> make_grid m d a f t = Some g0 -> quiet_run spline zoom root g0 os ->
  let g := run spline zoom root g0 os in Forall2 Qeq (fst (read_neigh root g)) (neigh_of root (g_matrix g) (a_shape (total g))).
Proof.
  intros R M QR g. assert (N : neigh_ok root g).
  { apply neigh_run; [exact R|exact QR|]. unfold make_grid in M. destruct (lookup Total d); [|discriminate]. injection M as <-. exact I. }
  unfold read_neigh, neigh_ok in *. destruct (g_neigh g); [exact N|]. apply Forall2_refl_Qeq.
Qed.

(** [make_supercell] of a grid without spin data repeats the data and scales the lattice. *)
Theorem C24_supercell x y z g nx ny nz :
  a_shape (total g) = (nx, ny, nz) -> diff g = None -> 1 <= x -> 1 <= y -> 1 <= z ->
  exists g', make_supercell (x, y, z) g = (g', false) /\ a_shape (total g') = (x * nx, y * ny, z * nz) /\ diff g' = None /\
    (forall i j k, a_at (total g') i j k = a_at (total g) (i mod nx) (j mod ny) (k mod nz)) /\ g_matrix g' = scale_matrix (x, y, z) (g_matrix g) /\
    (volume (g_matrix g') == inject_Z (x * y * z) * volume (g_matrix g))%Q.
Proof.
  intros S D X Y Z0. destruct (make_supercell (x, y, z) g) as [g' b] eqn:E. assert (B : b = false /\ diff g' = None).
  { unfold make_supercell in E. unfold tile_data in E. rewrite S in E. replace ((1 <=? x) && (1 <=? y) && (1 <=? z)) with true in E by lia.
    unfold diff in D. unfold set_total, diff in E. cbn [reset_cache with_data g_data] in E. rewrite lookup_assign in E. cbn [key_eqb] in E. rewrite D in E. cbn [truth] in E. injection E as <- <-. split; [reflexivity|].
    unfold diff. cbn [with_matrix reset_cache with_data g_data]. now rewrite lookup_assign. }
  destruct B as [-> D']. pose proof (supercell_spec (x, y, z) g g' E) as SP. unfold shape in SP. rewrite S in SP. destruct SP as (_ & _ & _ & S' & V & M & _). exists g'. repeat split; auto.
  rewrite M. destruct (g_matrix g) as [[[[a1 a2] a3] [[b1 b2] b3]] [[c1 c2] c3]]. unfold volume. cbn [scale_matrix vmap det3].
  rewrite <- (Qabs_pos (inject_Z (x * y * z))) at 1 by (change 0%Q with (inject_Z 0); rewrite <- Zle_Qle; apply Z.mul_nonneg_nonneg; [apply Z.mul_nonneg_nonneg|]; lia).
  rewrite <- Qabs_Qmult. apply Qabs_wd. rewrite !inject_Z_mult. ring.
Qed.

(** A copy has the same data and nothing stored. *)
Theorem C24_copy spline g t : lookup Total (g_data g) = Some t -> exists g', copy g = Some g' /\ g_data g' = g_data g /\ g_aug g' = g_aug g /\ g_type g' = g_type g /\ g_matrix g' = g_matrix g /\
  g_ngridpts g' = size_of (a_shape t) /\ fst (read_coeffs spline g') = spline (total g).
Proof. intros L. unfold copy, make_grid. rewrite L. eexists. split; [reflexivity|]. unfold read_coeffs, total. cbn. rewrite L. repeat split; reflexivity. Qed.

(** C49: a spin-polarised charge density splits into two densities with the right sum and difference. *)
Theorem C49_charge g t d :
  g_polarized g = true -> g_soc g = false -> g_type g = Charge -> g_spin g = None -> lookup Total (g_data g) = Some t -> lookup Diff (g_data g) = Some d -> a_shape d = a_shape t ->
  exists u w g', split_to_spin g = (Some (u, w), g') /\ a_shape (total u) = a_shape t /\ a_shape (total w) = a_shape t /\
    (forall i j k, (a_at (total u) i j k + a_at (total w) i j k == a_at t i j k)%Q) /\ (forall i j k, (a_at (total u) i j k - a_at (total w) i j k == a_at d i j k)%Q) /\
    g_data g' = g_data g.
Proof.
  intros P S T SP LT LD SH. unfold split_to_spin. rewrite P, S, T. cbn [negb orb]. unfold read_spin. rewrite SP. unfold spin_of, diff, total. rewrite LT, LD. unfold a_zip. rewrite (proj2 (shape_eqb_spec (a_shape t) (a_shape d)) (eq_sym SH)).
  eexists _, _, _. split; [reflexivity|]. cbn. repeat split; try reflexivity; intros; ring.
Qed.
Theorem C49_elf g t d :
  g_polarized g = true -> g_soc g = false -> g_type g = Elf -> lookup Total (g_data g) = Some t -> lookup Diff (g_data g) = Some d ->
  exists u w, split_to_spin g = (Some (u, w), g) /\ total u = t /\ total w = d /\ g_type u = Elf /\ g_type w = Elf.
Proof.
  intros P S T LT LD. unfold split_to_spin. rewrite P, S, T. cbn [negb orb]. unfold diff, total. rewrite LD, LT. rewrite T. eexists _, _. split; [reflexivity|]. repeat split.
Qed.

Lemma keys_refl l : keys_eqb l l = true.
Proof. induction l as [|k l IH]; [reflexivity|]. cbn. rewrite IH. now destruct k. Qed.
Lemma keys_eq a : forall b, keys_eqb a b = true <-> a = b.
Proof.
  induction a as [|x a IH]; intros [|y b]; cbn; split; try congruence. - intros H. apply andb_true_iff in H as [K H]. apply key_eqb_spec in K. apply IH in H. congruence.
  - intros H. injection H as -> ->. rewrite keys_refl. now destruct y.
Qed.

(** [linear_add] is [self + scale * other] for every key; it raises when the lists of keys differ. *)
Theorem C49_linear other s g g' : linear_add other s g = Some g' ->
  map fst (g_data g) = map fst (g_data other) /\ g_aug g' = [] /\ g_matrix g' = g_matrix g /\ g_type g' = g_type g /\
  forall k, match lookup k (g_data g) with
            | None => lookup k (g_data g') = None
            | Some a => exists b c, lookup k (g_data other) = Some b /\ lookup k (g_data g') = Some c /\ a_shape b = a_shape a /\ a_shape c = a_shape a /\
                forall i j l, a_at c i j l = (a_at a i j l + s * a_at b i j l)%Q
            end.
Proof.
  unfold linear_add. destruct (keys_eqb _ _) eqn:K; [|discriminate]. apply keys_eq in K. destruct (add_data s (g_data other) (g_data g)) as [d|] eqn:E; [|discriminate]. intros H. injection H as <-.
  split; [exact K|]. split; [reflexivity|]. split; [reflexivity|]. split; [reflexivity|]. intros k. pose proof (add_lookup _ _ _ _ E k) as L. cbn [with_aug with_data g_data]. destruct (lookup k (g_data g)) as [a|]; [|exact L].
  destruct L as (b & c & B & C & Zp). exists b, c. apply zip_shape in Zp as (S1 & S2 & V). auto.
Qed.
Theorem C49_keys other s g : map fst (g_data g) <> map fst (g_data other) -> linear_add other s g = None.
Proof. intros N. unfold linear_add. destruct (keys_eqb _ _) eqn:K; [|reflexivity]. apply keys_eq in K. contradiction. Qed.

(** Adding the two parts again gives the total, subtracting them the difference. *)
Theorem C49_sum g t d :
  g_polarized g = true -> g_soc g = false -> g_type g = Charge -> g_spin g = None -> lookup Total (g_data g) = Some t -> lookup Diff (g_data g) = Some d -> a_shape d = a_shape t ->
  exists u w g' p q, split_to_spin g = (Some (u, w), g') /\ linear_add w 1 u = Some p /\ linear_add w (-1) u = Some q /\ a_shape (total p) = a_shape t /\ a_shape (total q) = a_shape t /\
    (forall i j k, (a_at (total p) i j k == a_at t i j k)%Q) /\ (forall i j k, (a_at (total q) i j k == a_at d i j k)%Q).
Proof.
  intros P S T SP LT LD SH. unfold split_to_spin. rewrite P, S, T. cbn [negb orb]. unfold read_spin. rewrite SP. unfold spin_of, diff, total. rewrite LT, LD. unfold a_zip. rewrite (proj2 (shape_eqb_spec (a_shape t) (a_shape d)) (eq_sym SH)).
  assert (EE := proj2 (shape_eqb_spec (a_shape t) (a_shape t)) eq_refl).
  cbn [make_grid lookup]. eexists _, _, _, _, _. split; [reflexivity|]. unfold linear_add. cbn. unfold a_zip. cbn. rewrite EE. split; [reflexivity|]. split; [reflexivity|]. cbn. repeat split; intros; ring.
Qed.

(** ** Refutations *)
(** C86: coefficients of the cubic interpolation once read are kept: after an assignment or an addition the
    interpolation is the one of the old data. *)
Theorem C86_kept spline zoom root m t t' :
  a_shape t' = a_shape t -> exists g0, make_grid m [(Total, t)] [] Vasp (Some Charge) = Some g0 /\
  (let g := run spline zoom root g0 [ReadCoeffs; SetTotal t'] in total g = t' /\ fst (read_coeffs spline g) = spline t) /\
  (let g := run spline zoom root g0 [ReadCoeffs; Add g0 1] in (forall i j k, (a_at (total g) i j k == 2 * a_at t i j k)%Q) /\ fst (read_coeffs spline g) = spline t).
Proof.
  intros S. eexists. split; [reflexivity|]. split; [split; reflexivity|]. unfold run. cbn [fold_left step]. unfold linear_add, read_coeffs. cbn. unfold a_zip. rewrite (proj2 (shape_eqb_spec _ _) eq_refl). cbn. split; [intros; ring|reflexivity].
Qed.

(** C87: [ngridpts] is not updated by [make_supercell], so the volume of a point is too large. *)
Theorem C87_volume x y z g g' nx ny nz :
  a_shape (total g) = (nx, ny, nz) -> 0 < nx -> 0 < ny -> 0 < nz -> g_ngridpts g = nx * ny * nz -> make_supercell (x, y, z) g = (g', false) ->
  (point_volume g' == inject_Z (x * y * z) * (volume (g_matrix g') / inject_Z (size_of (a_shape (total g')))))%Q /\ g_ngridpts g' = nx * ny * nz /\ size_of (a_shape (total g')) = x * y * z * (nx * ny * nz).
Proof.
  intros S NX NY NZ N E. pose proof (supercell_spec _ _ _ E) as SP. unfold shape in SP. rewrite S in SP. destruct SP as (X & Y & Z0 & S' & _ & _ & N' & _). rewrite N' in *. split; [|split; [exact N|rewrite S'; cbn; ring]].
  unfold point_volume. rewrite N', N, S'. cbn [size_of]. replace (x * nx * (y * ny) * (z * nz)) with (x * y * z * (nx * ny * nz)) by ring. rewrite (inject_Z_mult (x * y * z)).
  assert (N1 : ~ (inject_Z (x * y * z) == 0)%Q) by (unfold Qeq; cbn; assert (0 < x * y * z) by (apply Z.mul_pos_pos; [apply Z.mul_pos_pos|]; lia); lia).
  assert (N2 : ~ (inject_Z (nx * ny * nz) == 0)%Q) by (unfold Qeq; cbn; assert (0 < nx * ny * nz) by (apply Z.mul_pos_pos; [apply Z.mul_pos_pos|]; lia); lia).
  field. auto.
Qed.

(** C88: [make_supercell] of a spin-polarised grid raises (the truth value of an array) and leaves the total
    repeated, the difference and the lattice not. *)
Theorem C88_spin x y z g d nx ny nz :
  a_shape (total g) = (nx, ny, nz) -> diff g = Some d -> size_of (a_shape d) <> 1 -> 1 <= x -> 1 <= y -> 1 <= z ->
  exists g', make_supercell (x, y, z) g = (g', true) /\ a_shape (total g') = (x * nx, y * ny, z * nz) /\ diff g' = Some d /\ g_matrix g' = g_matrix g.
Proof.
  intros S D N X Y Z0. unfold make_supercell, tile_data. rewrite S. replace ((1 <=? x) && (1 <=? y) && (1 <=? z)) with true by lia.
  match goal with |- context [set_total ?t g] => set (t0 := t) end. assert (D' : diff (set_total t0 g) = Some d) by (unfold diff, set_total; cbn [reset_cache with_data g_data]; rewrite lookup_assign; exact D).
  rewrite D'. unfold truth. replace (size_of (a_shape d) =? 1) with false by lia. exists (set_total t0 g). split; [reflexivity|]. split; [exact (shape_set_total t0 g)|]. auto.
Qed.

(** C89: the spin parts are stored at the first split and not cleared: after a new total is assigned the old parts
    are returned; and a grid that gets its difference later cannot be split. *)
Theorem C89_split m t t' d : a_shape d = a_shape t -> a_shape t' = a_shape t -> forall spline zoom root,
  (exists g0, make_grid m [(Total, t); (Diff, d)] [] Vasp (Some Charge) = Some g0 /\
     let g := run spline zoom root g0 [Split; SetTotal t'] in total g = t' /\
     exists u w, fst (split_to_spin g) = Some (u, w) /\ forall i j k, (a_at (total u) i j k + a_at (total w) i j k == a_at t i j k)%Q) /\
  (exists g0, make_grid m [(Total, t)] [] Vasp (Some Charge) = Some g0 /\ let g := run spline zoom root g0 [SetDiff d] in diff g = Some d /\ fst (split_to_spin g) = None).
Proof.
  intros SD ST spline zoom root. split.
  - eexists. split; [reflexivity|]. unfold run. cbn [fold_left step].
    match goal with |- context [split_to_spin ?g0] => destruct (C49_charge g0 t d eq_refl eq_refl eq_refl eq_refl eq_refl eq_refl SD) as (u & w & g' & E & _) end.
    unfold split_to_spin. cbn [negb orb g_polarized g_soc g_type length Nat.leb]. unfold read_spin, spin_of, diff, total. cbn [g_spin g_data lookup key_eqb]. unfold a_zip. rewrite (proj2 (shape_eqb_spec (a_shape t) (a_shape d)) (eq_sym SD)). cbn.
    split; [reflexivity|]. eexists _, _. split; [reflexivity|]. intros. cbn. ring.
  - eexists. split; [reflexivity|]. split; reflexivity.
Qed.

(** C90: [regrid] gives a charge density whatever the data: the parts of an ELF are mixed by a later split. *)
Theorem C90_regrid m t d root spline s (zoom : Z * Z * Z -> arr -> arr) : a_shape (zoom s d) = a_shape (zoom s t) -> exists g0 g u w,
  make_grid m [(Total, t); (Diff, d)] [] Vasp (Some Elf) = Some g0 /\ g = run spline zoom root g0 [Regrid s] /\ g_type g = Charge /\ lookup Diff (g_data g) = Some (zoom s d) /\
  fst (split_to_spin g) = Some (u, w) /\ forall i j k, (a_at (total u) i j k == (a_at (zoom s t) i j k + a_at (zoom s d) i j k) * (1 # 2))%Q.
Proof.
  intros S. destruct (make_grid m [(Total, t); (Diff, d)] [] Vasp (Some Elf)) as [g0|] eqn:E; [|discriminate]. injection E as <-.
  set (g0 := Grid _ _ _ _ _ _ _ _ _ _ _ _ _ _ _ _). set (g := run spline zoom root g0 [Regrid s]).
  destruct (C49_charge g (zoom s t) (zoom s d) eq_refl eq_refl eq_refl eq_refl eq_refl eq_refl S) as (u & w & g' & E & _ & _ & P & M & _).
  exists g0, g, u, w. split; [reflexivity|]. split; [reflexivity|]. split; [reflexivity|]. split; [reflexivity|]. split; [now rewrite E|]. intros i j k. specialize (P i j k). specialize (M i j k). lra.
Qed.

(** C91: [point_dists] is the distance to the nearest corner of the cell; in a skewed cell another lattice
    point is nearer. *)
Definition skew : mat := ((1, 0, 0), (8, 6, 0), (0, 0, 100))%Q.
Lemma qmin_list_ge c l : l <> [] -> Forall (fun x => c <= x)%Q l -> (c <= qmin_list l)%Q.
Proof.
  destruct l as [|q l]; [congruence|]. intros _ F. inversion F as [|? ? A B]; subst. cbn [qmin_list]. clear F. revert q A. induction B as [|x l X B IH]; intros q A; [exact A|]. cbn [fold_left]. apply IH. unfold qmin. now destruct (Qltb q x).
Qed.
Theorem C91_dists_refuted root : (forall p q, (p <= q)%Q -> (root p <= root q)%Q) -> (root 9 == 3)%Q -> (root 16 == 4)%Q ->
  exists q, nth_error (dists_of root skew (1, 2, 1)) 1 = Some q /\ (4 <= q)%Q /\
    exists i j k, let p := vmat (0, 1 # 2, 0)%Q skew in let l := vmat (inject_Z i, inject_Z j, inject_Z k) skew in (root (norm2 (vsub p l)) == 3)%Q.
Proof.
  intros MO R9 R16. eexists. split; [reflexivity|]. split.
  - assert (RD : forall p, (16 <= p)%Q -> (4 <= round6 (root p))%Q).
    { intros p P. apply MO in P. unfold round6. destruct (py_round_spec (root p * inject_Z mega)) as [B _].
      assert (H : (4000000 <= py_round (root p * inject_Z mega))).
      { unfold mega in *. apply Z.lt_pred_le. apply Z.nle_gt. intros L. assert (L' : (inject_Z (py_round (root p * inject_Z 1000000)) <= inject_Z (Z.pred 4000000))%Q) by (rewrite <- Zle_Qle; exact L).
        change (inject_Z (Z.pred 4000000)) with 3999999%Q in L'. destruct B as [B1 B2]. change (inject_Z 1000000) with 1000000%Q in *. lra. }
      rewrite Zle_Qle in H. unfold Qdiv. apply Qle_shift_div_l; [reflexivity|]. exact H. }
    apply qmin_list_ge; [discriminate|]. repeat constructor; apply RD; vm_compute; discriminate.
  - exists 4, 0, 0. cbv zeta. rewrite <- R9. assert (E : (norm2 (vsub (vmat (0, 1 # 2, 0)%Q skew) (vmat (inject_Z 4, inject_Z 0, inject_Z 0) skew)) == 9)%Q) by reflexivity.
    apply Qle_antisym; apply MO; rewrite E; lra.
Qed.

(** C92: the augmentation data of the parts are those of the total and of the difference, not sums and differences. *)
Theorem C92_augmentation_refuted : exists g u w g', g_type g = Charge /\ lookup Total (g_aug g) = Some [4%Q] /\ lookup Diff (g_aug g) = Some [2%Q] /\ split_to_spin g = (Some (u, w), g') /\
  lookup Total (g_aug u) = Some [4%Q] /\ lookup Total (g_aug w) = Some [2%Q] /\ ~ (4 + 2 == 4)%Q.
Proof.
  set (a := Arr (1, 1, 1) (fun _ _ _ => 1%Q)). set (g := Grid ((1, 0, 0), (0, 1, 0), (0, 0, 1))%Q [(Total, a); (Diff, a)] [(Total, [4%Q]); (Diff, [2%Q])] Vasp Charge true false 1 None None None None None None None None).
  destruct (split_to_spin g) as [[[u w]|] g'] eqn:E; [|discriminate]. exists g, u, w, g'. split; [reflexivity|]. split; [reflexivity|]. split; [reflexivity|]. split; [exact E|]. injection E as <- <- <-.
  split; [reflexivity|]. split; [reflexivity|]. intros H. discriminate H.
Qed.

(** ** Examples *)
Definition unit_mat : mat := ((2, 0, 0), (0, 1, 0), (0, 0, 1))%Q.
Definition ramp : arr := Arr (2, 1, 1) (fun i _ _ => inject_Z (1 + i)).
Definition flatd : arr := Arr (2, 1, 1) (fun _ _ _ => 1%Q).
Definition demo : grid := Grid unit_mat [(Total, ramp)] [] Vasp Charge false false 2 None None None None None None None None.
Definition demo2 : grid := Grid unit_mat [(Total, ramp); (Diff, flatd)] [] Vasp Charge true false 2 None None None None None None None None.
Example C24_ex : make_grid unit_mat [(Total, ramp)] [] Vasp None = Some demo /\
  fst (read_indices (run (fun a => a) (fun _ a => a) (fun q => q) demo [ReadIndices; Supercell (2, 1, 1); ReadFar])) = [(0, 0, 0); (1, 0, 0); (2, 0, 0); (3, 0, 0)].
Proof. split; reflexivity. Qed.
Example C24_ex_neigh : quiet_run (fun a => a) (fun _ a => a) (fun q => q) demo [ReadNeigh; Supercell (2, 1, 1); SetTotal (Arr (4, 1, 1) (fun _ _ _ => 0%Q))].
Proof. repeat split. Qed.
Example C49_ex : match fst (split_to_spin demo2) with Some (u, w) => map (fun i => Qred (a_at (total u) i 0 0)) [0; 1] = [1; 3 # 2]%Q /\ map (fun i => Qred (a_at (total w) i 0 0)) [0; 1] = [0; 1 # 2]%Q | None => False end.
Proof. split; reflexivity. Qed.
Theorem C86_coeffs_refuted : exists spline zoom root g os, let g' := run spline zoom root g os in
  ~ (a_at (fst (read_coeffs spline g')) 1 0 0 == a_at (spline (total g')) 1 0 0)%Q.
Proof. exists (fun a => a), (fun _ a => a), (fun q => q), demo, [ReadCoeffs; SetTotal flatd]. intros g H. discriminate H. Qed.
Theorem C87_volume_refuted : exists f g g', make_supercell f g = (g', false) /\ ~ (point_volume g' == volume (g_matrix g') / inject_Z (size_of (shape g')))%Q.
Proof. exists (2, 1, 1), demo, (fst (make_supercell (2, 1, 1) demo)). split; [reflexivity|]. intros H. discriminate H. Qed.
Theorem C88_spin_refuted : exists f g, g_polarized g = true /\ snd (make_supercell f g) = true /\ shape (fst (make_supercell f g)) <> shape g /\ g_matrix (fst (make_supercell f g)) = g_matrix g.
Proof. exists (2, 2, 2), demo2. split; [reflexivity|]. split; [reflexivity|]. split; [discriminate|reflexivity]. Qed.
Theorem C89_split_refuted : exists spline zoom root g os u w, let g' := run spline zoom root g os in
  fst (split_to_spin g') = Some (u, w) /\ ~ (a_at (total u) 1 0 0 + a_at (total w) 1 0 0 == a_at (total g') 1 0 0)%Q.
Proof.
  exists (fun a => a), (fun _ a => a), (fun q => q), demo2, [Split; SetTotal flatd].
  destruct (fst (split_to_spin (run (fun a => a) (fun _ a => a) (fun q => q) demo2 [Split; SetTotal flatd]))) as [[u w]|] eqn:E; [|discriminate]. exists u, w. split; [exact E|]. injection E as <- <-. intros H. discriminate H.
Qed.
Theorem C90_regrid_refuted : exists spline zoom root g os u w, g_type g = Elf /\ let g' := run spline zoom root g os in
  fst (split_to_spin g') = Some (u, w) /\ ~ (a_at (total u) 0 0 0 == a_at (zoom (2, 1, 1)%Z (total g)) 0 0 0)%Q /\ os = [Regrid (2, 1, 1)].
Proof.
  set (e := Grid unit_mat [(Total, ramp); (Diff, Arr (2, 1, 1) (fun _ _ _ => 0%Q))] [] Vasp Elf true false 2 None None None None None None None None).
  exists (fun a => a), (fun _ a => a), (fun q => q), e, [Regrid (2, 1, 1)].
  destruct (fst (split_to_spin (run (fun a => a) (fun _ a => a) (fun q => q) e [Regrid (2, 1, 1)]))) as [[u w]|] eqn:E; [|discriminate]. exists u, w. split; [reflexivity|]. split; [exact E|]. split; [|reflexivity]. injection E as <- <-. intros H. discriminate H.
Qed.

(** Distances to the nearest corner of the cell: a corner is a lattice combination with coefficients 0 and 1. *)
Definition bit (q : Q) : Prop := q = 0%Q \/ q = 1%Q.
Definition corner (m : mat) (p q r : Q) : vec :=
  let '((ax, ay, az), (bx, by_, bz), (cx, cy, cz)) := m in
  (p * ax + q * bx + r * cx, p * ay + q * by_ + r * cy, p * az + q * bz + r * cz)%Q.

Lemma round6_comp a b : (a == b)%Q -> (round6 a == round6 b)%Q.
Proof. intros H. unfold round6. assert (E : (a * inject_Z mega == b * inject_Z mega)%Q) by now rewrite H. now rewrite (InterpProofs.py_round_comp _ _ E). Qed.

Lemma qmin_list_spec l : l <> [] -> (exists x, In x l /\ qmin_list l = x) /\ forall x, In x l -> (qmin_list l <= x)%Q.
Proof.
  destruct l as [|a l]; [contradiction|]. intros _. cbn [qmin_list]. revert a. induction l as [|b l IH]; intros a; cbn [fold_left].
  - split; [exists a; split; [now left|reflexivity]|]. intros x [<-|[]]. apply Qle_refl.
  - destruct (IH (qmin a b)) as [(x & X & E) L]. assert (M : (qmin a b = a \/ qmin a b = b) /\ (qmin a b <= a)%Q /\ (qmin a b <= b)%Q).
    { unfold qmin. destruct (Qltb_spec a b); (split; [auto|]); split; lra. }
    destruct M as (M & Ma & Mb). split.
    + exists x. split; [|exact E]. destruct X as [<-|X]; [destruct M as [-> | ->]; [now left|right; now left]|now right; right].
    + intros y [<-|[<-|Y]]; [eapply Qle_trans; [apply L; now left|exact Ma]|eapply Qle_trans; [apply L; now left|exact Mb]|apply L; now right].
Qed.

Theorem C24_dists root m x y z n v : (forall a b, (a == b)%Q -> (root a == root b)%Q) ->
  nth_error (grid_to_cart x y z m (map qvec (indices_of (x, y, z)))) n = Some v ->
  exists d, nth_error (dists_of root m (x, y, z)) n = Some d /\
    (forall p q r, bit p -> bit q -> bit r -> (d <= round6 (root (norm2 (vsub v (corner m p q r)))))%Q) /\
    exists p q r, bit p /\ bit q /\ bit r /\ (d == round6 (root (norm2 (vsub v (corner m p q r)))))%Q.
Proof.
  intros RC H. unfold dists_of. rewrite nth_error_map, H. cbn [option_map]. eexists. split; [reflexivity|].
  set (g := fun c => round6 (root (norm2 (vsub v c)))).
  destruct (qmin_list_spec (map g (corners m))) as [(e & I & E) L].
  { destruct m as [[a b] c]. discriminate. }
  assert (GC : forall a b, veq a b -> (g a == g b)%Q).
  { intros a b V. unfold g. apply round6_comp, RC. destruct v as [[v1 v2] v3], a as [[a1 a2] a3], b as [[b1 b2] b3]. destruct V as (V1 & V2 & V3). cbn in *. now rewrite V1, V2, V3. }
  assert (T : forall p q r, bit p -> bit q -> bit r -> exists c, In c (corners m) /\ veq c (corner m p q r)).
  { intros p q r [-> | ->] [-> | ->] [-> | ->]; destruct m as [[[[ax ay] az] [[bx by_] bz]] [[cx cy] cz]]; cbn [corners corner vadd].
    all: first [eexists; split; [left; reflexivity|unfold veq; cbn; repeat split; ring] | eexists; split; [do 1 right; left; reflexivity|unfold veq; cbn; repeat split; ring] | eexists; split; [do 2 right; left; reflexivity|unfold veq; cbn; repeat split; ring] | eexists; split; [do 3 right; left; reflexivity|unfold veq; cbn; repeat split; ring] | eexists; split; [do 4 right; left; reflexivity|unfold veq; cbn; repeat split; ring] | eexists; split; [do 5 right; left; reflexivity|unfold veq; cbn; repeat split; ring] | eexists; split; [do 6 right; left; reflexivity|unfold veq; cbn; repeat split; ring] | eexists; split; [do 7 right; left; reflexivity|unfold veq; cbn; repeat split; ring]]. }
  split.
  - intros p q r P Q R. destruct (T p q r P Q R) as (c & C & V). eapply Qle_trans; [apply L, in_map, C|]. rewrite (GC _ _ V). apply Qle_refl.
  - apply in_map_iff in I as (c & <- & C). change (fun c => round6 (root (norm2 (vsub v c)))) with g. rewrite E.
    assert (B0 : bit 0) by now left. assert (B1 : bit 1) by now right.
    assert (V : exists p q r, bit p /\ bit q /\ bit r /\ veq c (corner m p q r)).
    { destruct m as [[[[ax ay] az] [[bx by_] bz]] [[cx cy] cz]]. cbn [corners vadd] in C.
      repeat (destruct C as [<-|C]; [first [exists 0%Q, 0%Q, 0%Q; repeat (split; [assumption|]); unfold veq; cbn; repeat split; ring | exists 1%Q, 0%Q, 0%Q; repeat (split; [assumption|]); unfold veq; cbn; repeat split; ring
        | exists 0%Q, 1%Q, 0%Q; repeat (split; [assumption|]); unfold veq; cbn; repeat split; ring| exists 0%Q, 0%Q, 1%Q; repeat (split; [assumption|]); unfold veq; cbn; repeat split; ring
        | exists 1%Q, 1%Q, 0%Q; repeat (split; [assumption|]); unfold veq; cbn; repeat split; ring| exists 1%Q, 0%Q, 1%Q; repeat (split; [assumption|]); unfold veq; cbn; repeat split; ring
        | exists 0%Q, 1%Q, 1%Q; repeat (split; [assumption|]); unfold veq; cbn; repeat split; ring| exists 1%Q, 1%Q, 1%Q; repeat (split; [assumption|]); unfold veq; cbn; repeat split; ring]|]).
      destruct C. }
    destruct V as (p & q & r & P & Q & R & V). exists p, q, r. repeat (split; [assumption|]). exact (GC _ _ V).
Qed.
Print Assumptions C24_dists.
Print Assumptions C24_caches. Print Assumptions C24_neighbours. Print Assumptions C24_supercell. Print Assumptions C24_copy.
Print Assumptions C49_charge. Print Assumptions C49_elf. Print Assumptions C49_linear. Print Assumptions C49_keys. Print Assumptions C49_sum.
Print Assumptions C86_kept. Print Assumptions C87_volume. Print Assumptions C88_spin. Print Assumptions C89_split.
Print Assumptions C90_regrid. Print Assumptions C91_dists_refuted. Print Assumptions C92_augmentation_refuted.
Print Assumptions C86_coeffs_refuted. Print Assumptions C87_volume_refuted. Print Assumptions C88_spin_refuted. Print Assumptions C89_split_refuted. Print Assumptions C90_regrid_refuted.
