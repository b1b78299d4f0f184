(** Auxiliary statements assembled for the property file CoreProps.v. *)
From Verif Require Import Base GridModel GridProofs NeighModel NeighSpec NeighProofs
  RootsModel RootsSpec RootsProofs OngridProofs ChargeModel ChargeProofs.
From Coq Require Import ZifyBool ZifyNat.

Lemma wrap_window_both i n : 0 < n ->
  (wrap1 i n = i mod n <-> - n <= i < 2 * n) /\ (0 <= wrap1 i n < n <-> - n <= i < 2 * n).
Proof. intros H. split; [now apply wrap1_mod_iff|now apply wrap1_window]. Qed.

Lemma neighbour_in_range i j k si sj sk nx ny nz :
  in_grid nx ny nz (i, j, k) -> -1 <= si <= 1 -> -1 <= sj <= 1 -> -1 <= sk <= 1 ->
  in_grid nx ny nz (wrap_point (i + si) (j + sj) (k + sk) nx ny nz) /\
  wrap_point (i + si) (j + sj) (k + sk) nx ny nz
    = ((i + si) mod nx, (j + sj) mod ny, (k + sk) mod nz).
Proof.
  intros G A B C. split; [now apply wrap_point_in_grid|]. destruct G as (G1 & G2 & G3).
  unfold wrap_point. rewrite !wrap1_mod; auto; try lia; apply unit_step_window; auto.
Qed.

Lemma shift_reconstructs i j k nx ny nz :
  let '((i', j', k'), (a, b, c)) := wrap_point_w_shift i j k nx ny nz in
  wrap_point i j k nx ny nz = (i', j', k') /\
  i = i' + a * nx /\ j = j' + b * ny /\ k = k' + c * nz.
Proof.
  unfold wrap_point_w_shift.
  pose proof (wrap1_shift_spec i nx) as [A _]. pose proof (wrap1_shift_spec j ny) as [B _].
  pose proof (wrap1_shift_spec k nz) as [C _].
  pose proof (wrap1_shift_fst i nx) as A'. pose proof (wrap1_shift_fst j ny) as B'.
  pose proof (wrap1_shift_fst k nz) as C'.
  destruct (wrap1_shift i nx), (wrap1_shift j ny), (wrap1_shift k nz). cbn [fst snd] in *.
  unfold wrap_point. rewrite <- A', <- B', <- C'. repeat split; assumption.
Qed.

Lemma flat_bijection nx ny nz : 0 < ny -> 0 < nz ->
  (forall i j k, in_grid nx ny nz (i, j, k) ->
     0 <= coords_to_flat i j k (ny * nz) nz < nx * ny * nz /\
     flat_to_coords (coords_to_flat i j k (ny * nz) nz) (ny * nz) nz = (i, j, k)) /\
  (forall idx, 0 <= idx < nx * ny * nz ->
     let '(i, j, k) := flat_to_coords idx (ny * nz) nz in
     in_grid nx ny nz (i, j, k) /\ coords_to_flat i j k (ny * nz) nz = idx).
Proof.
  intros Hy Hz. split.
  - intros i j k G. split; [now apply coords_flat_range|eapply flat_coords_inverse; eauto].
  - intros idx H. now apply coords_flat_inverse.
Qed.

Lemma ex_nbs_ok s d : In (s, d) [((0, 0, -1), 1%Q); ((0, 0, 1), 1%Q)] -> unit_offset s /\ (0 < d)%Q.
Proof.
  intros [[= <- <-]|[[= <- <-]|[]]]; (split; [unfold unit_offset; lia|reflexivity]).
Qed.

Lemma StronglySorted_filter {A} (R : A -> A -> Prop) (p : A -> bool) l :
  StronglySorted R l -> StronglySorted R (filter p l).
Proof.
  induction 1 as [|x t S IH F]; simpl; [constructor|]. destruct (p x); [|exact IH].
  constructor; [exact IH|]. apply Forall_forall. intros y Hy. apply filter_In in Hy as [Hy _].
  rewrite Forall_forall in F. now apply F.
Qed.

Lemma StronglySorted_map {A B} (f : A -> B) (R : B -> B -> Prop) (Q : A -> A -> Prop) l :
  StronglySorted Q l -> (forall x y, In x l -> In y l -> Q x y -> R (f x) (f y)) -> StronglySorted R (map f l).
Proof.
  induction 1 as [|x t S IH F]; intros H; simpl; constructor.
  - apply IH. intros a b Ha Hb. apply H; now right.
  - apply Forall_forall. intros y Hy. apply in_map_iff in Hy as (z & <- & Hz).
    rewrite Forall_forall in F. apply H; [now left|now right|now apply F].
Qed.

Lemma seq_StronglySorted s n : StronglySorted lt (seq s n).
Proof.
  revert s. induction n as [|n IH]; intros s; simpl; constructor; auto.
  apply Forall_forall. intros x Hx. apply in_seq in Hx. lia.
Qed.

Section AW.
Variables nx ny nz : Z.
Hypotheses (Hx : 0 < nx) (Hy : 0 < ny) (Hz : 0 < nz).

Lemma voxel_number_unflat idx : (idx < Z.to_nat (nx * ny * nz))%nat ->
  voxel_number ny nz (unflat ny nz (Z.of_nat idx)) = idx /\ in_grid nx ny nz (unflat ny nz (Z.of_nat idx)).
Proof.
  intros H. pose proof (coords_flat_inverse (Z.of_nat idx) nx ny nz Hy Hz ltac:(lia)) as I.
  unfold unflat. destruct (flat_to_coords (Z.of_nat idx) (ny * nz) nz) as [[i j] k] eqn:E.
  destruct I as [G F]. split; [|exact G]. unfold voxel_number. unfold coords_to_flat in F.
  replace ((i * ny + j) * nz + k) with (i * (ny * nz) + j * nz + k) by ring. lia.
Qed.

Lemma argwhere_spec mask : NoDup (argwhere nx ny nz mask) /\
  StronglySorted (fun v w => (voxel_number ny nz v < voxel_number ny nz w)%nat) (argwhere nx ny nz mask) /\
  forall v, In v (argwhere nx ny nz mask) <->
            in_grid nx ny nz v /\ nth (voxel_number ny nz v) mask false = true.
Proof.
  assert (SS : StronglySorted (fun v w => (voxel_number ny nz v < voxel_number ny nz w)%nat) (argwhere nx ny nz mask)).
  { unfold argwhere. eapply StronglySorted_map.
    - apply StronglySorted_filter, seq_StronglySorted.
    - intros a b Ha Hb L. apply filter_In in Ha as [Ha _], Hb as [Hb _].
      apply in_seq in Ha, Hb. rewrite !(fun i H => proj1 (voxel_number_unflat i H)) by lia. exact L. }
  split; [|split; [exact SS|]].
  - clear -SS. induction SS as [|x t S IH F]; constructor; auto. intros Hin. rewrite Forall_forall in F.
    specialize (F x Hin). lia.
  - intros v. unfold argwhere. rewrite in_map_iff. split.
    + intros (idx & <- & Hi). apply filter_In in Hi as [Hs Hm]. apply in_seq in Hs.
      destruct (voxel_number_unflat idx ltac:(lia)) as [E G]. rewrite E. auto.
    + intros [G Hm]. exists (voxel_number ny nz v).
      split; [now apply (unflat_voxel_number nx ny nz)|].
      apply filter_In. split; [|exact Hm]. apply in_seq. pose proof (voxel_number_lt nx ny nz Hx Hy Hz v G). lia.
Qed.

Lemma ascent_terminates data nbs : (forall s d, In (s, d) nbs -> unit_offset s /\ (0 < d)%Q) ->
  forall v, in_grid nx ny nz v ->
  exists m, ascends nx ny nz data nbs v m /\ in_grid nx ny nz m /\
    locally_highest nx ny nz data (map fst nbs) m /\ (value_at data v <= value_at data m)%Q /\
    (forall m', ascends nx ny nz data nbs v m' -> m' = m).
Proof.
  intros Hn v G. destruct (ascends_exists nx ny nz Hx Hy Hz data nbs Hn v G) as (m & A & B & C & D).
  exists m. split; [exact A|split; [exact B|split; [exact C|split; [exact D|]]]]. intros m' A'. exact (ascends_fun nx ny nz Hx Hy Hz data nbs Hn v m' A' G m A).
Qed.
End AW.

Lemma reaches_unique p i r1 r2 : reaches p i r1 -> reaches p i r2 -> r1 = r2.
Proof. intros A B. eapply reaches_fun; eauto. Qed.

Lemma ex_good_pointers : good_pointers [1; 2; 2; -1; 0].
Proof.
  split.
  - intros [|[|[|[|[|i]]]]] x Hx H; simpl in Hx; try (injection Hx as <-); simpl; try lia;
      try (split; [lia|discriminate]). destruct i; discriminate.
  - assert (R2 : reaches [1; 2; 2; -1; 0] 2 2) by (constructor; reflexivity).
    assert (R1 : reaches [1; 2; 2; -1; 0] 1 2) by (eapply reaches_step with (j := 2%nat); [reflexivity|exact R2]).
    assert (R0 : reaches [1; 2; 2; -1; 0] 0 2) by (eapply reaches_step with (j := 1%nat); [reflexivity|exact R1]).
    intros [|[|[|[|[|i]]]]] x Hx H; simpl in Hx; try (injection Hx as <-); try (exists 2%nat; assumption); try lia.
    + exists 2%nat. eapply reaches_step with (j := 0%nat); [reflexivity|exact R0].
    + destruct i; discriminate.
Qed.

Lemma vacuum_pointer_bug : exists p,
  nth_error p 0 = Some 1 /\ nth_error p 1 = Some (-1) /\ ~ reaches p 0 2 /\
  get_roots 1 5 p = Done [2; -1; 2].
Proof.
  exists [1; -1; 2]. repeat split.
  intros R. inversion R as [|? j ? Hj R']; subst. injection Hj as Hj. assert (j = 1%nat) by lia. subst.
  inversion R' as [|? j' ? Hj' R'']; subst. injection Hj' as Hj'. lia.
Qed.

Lemma compact_full roots : (forall x, In x roots -> -1 <= x) ->
  dense_labelling roots (compact roots) (length (filter (fun x => negb (x =? -1)) (np_unique roots))) /\
  (forall x, In x (np_unique roots) <-> In x roots) /\ StronglySorted Z.lt (np_unique roots).
Proof.
  intros H. split; [exact (compact_dense roots H)|]. split; [apply np_unique_in|apply np_unique_sorted].
Qed.

Lemma orthogonal_min_image_full a b c basin atom : unit_cell basin -> unit_cell atom ->
  (forall k1 k2 k3, (basin_atom_dist2 (diag a b c) basin atom <= image_dist2 (diag a b c) basin atom k1 k2 k3)%Q) /\
  (exists k1 k2 k3, (basin_atom_dist2 (diag a b c) basin atom == image_dist2 (diag a b c) basin atom k1 k2 k3)%Q).
Proof.
  intros A B. split; [intros; now apply orthogonal_min_image|].
  destruct basin as [[x1 y1] z1], atom as [[x2 y2] z2]. unfold basin_atom_dist2, image_dist2. cbn [vsub vmap].
  destruct (wrap_diff_int (x2 - x1)) as (k1 & E1), (wrap_diff_int (y2 - y1)) as (k2 & E2), (wrap_diff_int (z2 - z1)) as (k3 & E3).
  exists k1, k2, k3. unfold diag. cbn [vmat norm2]. rewrite E1, E2, E3. reflexivity.
Qed.

(** Cell a = (1,0,0), b = (9/10,1,0), c = (0,0,10).  Basin at the origin; the atom at
    (2/5, 2/5, 0) is wrapped to itself at distance^2 0.7376, but its image at
    (-3/5, 2/5, 0) is at distance^2 0.2176.  The other atom, at (0, 0, 3/50), is at
    distance^2 0.36. *)
Lemma skewed_wrong_atom : exists L basin atom0 atom1 k1 k2 k3,
  unit_cell basin /\ unit_cell atom0 /\ unit_cell atom1 /\
  basin_atom L [atom0; atom1] basin = Some 1%nat /\
  forall j1 j2 j3, (image_dist2 L basin atom0 k1 k2 k3 < image_dist2 L basin atom1 j1 j2 j3)%Q.
Proof.
  exists ((1, 0, 0), (9#10, 1, 0), (0, 0, 10))%Q, (0, 0, 0)%Q, (2#5, 2#5, 0)%Q, (0, 0, 3#50)%Q, (-1), 0, 0.
  repeat split; try (unfold Qle, Qlt; simpl; lia).
  intros j1 j2 j3. unfold image_dist2. cbn [vsub vmat norm2].
  set (c := inject_Z j3).
  assert (H3 : ((36 # 100) <= (10 * (3 # 50) + 10 * c) * (10 * (3 # 50) + 10 * c))%Q).
  { destruct (Z_le_gt_dec 0 j3) as [L|L].
    - assert (0 <= c)%Q by (unfold c; change 0%Q with (inject_Z 0); rewrite <- Zle_Qle; lia). nra.
    - assert (c <= -(1))%Q by (unfold c; change (-(1))%Q with (inject_Z (-1)); rewrite <- Zle_Qle; lia). nra. }
  set (u := ((0 - 0 + inject_Z j1) * 1 + (0 - 0 + inject_Z j2) * (9 # 10) + ((3 # 50) - 0 + c) * 0)%Q).
  set (w := ((0 - 0 + inject_Z j1) * 0 + (0 - 0 + inject_Z j2) * 1 + ((3 # 50) - 0 + c) * 0)%Q).
  set (t := ((0 - 0 + inject_Z j1) * 0 + (0 - 0 + inject_Z j2) * 0 + ((3 # 50) - 0 + c) * 10)%Q).
  assert (Et : (t == 10 * (3 # 50) + 10 * c)%Q) by (unfold t; ring).
  assert (Hu : (0 <= u * u)%Q) by nra. assert (Hw : (0 <= w * w)%Q) by nra.
  rewrite Et. clearbody u w c. clear Et t.
  apply Qlt_le_trans with (36 # 100)%Q; [reflexivity|]. lra.
Qed.
