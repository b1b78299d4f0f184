(** Theorems about coordinates, neighbour lists, boxes and merged coordinates. *)
From Verif Require Import Base GridModel ChargeModel NearModel SurfaceModel RefineModel CoordModel WeightModel WeightRun CoordProofs CoordMerge RefineProps.
From Coq Require Import Qround.
Local Open Scope Z_scope.

(** ** C21 *)
Theorem C21_round_trips : forall nx ny nz m, 0 < nx -> 0 < ny -> 0 < nz -> ~ (det3 m == 0)%Q -> forall l,
  (exists f, cart_to_frac m (frac_to_cart m l) = Some f /\ Forall2 veq f l) /\
  (exists f, cart_to_frac m l = Some f /\ Forall2 veq (frac_to_cart m f) l) /\
  Forall2 veq (frac_to_grid nx ny nz (grid_to_frac nx ny nz l)) l /\
  Forall2 veq (grid_to_frac nx ny nz (frac_to_grid nx ny nz l)) l /\
  (exists g, cart_to_grid nx ny nz m (grid_to_cart nx ny nz m l) = Some g /\ Forall2 veq g l) /\
  (exists g, cart_to_grid nx ny nz m l = Some g /\ Forall2 veq (grid_to_cart nx ny nz m g) l).
Proof. exact round_trips. Qed.
Print Assumptions C21_round_trips.
(** Cartesian coordinates are the combination of the lattice rows. *)
Theorem C21_cartesian : forall a b c (x y z : Q), veq (nth 0 (frac_to_cart (a, b, c) [(x, y, z)]) (0, 0, 0)%Q)
  (vadd (vadd (vmap (fun t => x * t)%Q a) (vmap (fun t => y * t)%Q b)) (vmap (fun t => z * t)%Q c)).
Proof. intros [[? ?] ?] [[? ?] ?] [[? ?] ?] x y z. cbn. repeat split; reflexivity. Qed.
Print Assumptions C21_cartesian.
Theorem C21_singular : forall m l, (det3 m == 0)%Q -> cart_to_frac m l = None.
Proof. intros m l H. unfold cart_to_frac. now rewrite (singular m H). Qed.
Print Assumptions C21_singular.
Example C21_ex : let m := ((2, 0, 0), (1, 3, 0), (0, 1, 4))%Q in
  exists g, cart_to_grid 10 20 40 m [(2, 5 # 2, 2)%Q] = Some g /\ Forall2 veq g [(20 # 3, 40 # 3, 20)%Q] /\ ~ (det3 m == 0)%Q.
Proof. eexists. split; [reflexivity|]. split; [|discriminate]. constructor; [|constructor]. repeat split; reflexivity. Qed.

(** ** C22 *)
Theorem C22_neighbors : forall i j k, In (i, j, k) point_neighbors <-> (-1 <= i <= 1 /\ -1 <= j <= 1 /\ -1 <= k <= 1) /\ (i, j, k) <> (0, 0, 0).
Proof. exact point_neighbors_spec. Qed.
Print Assumptions C22_neighbors.
Theorem C22_once : NoDup point_neighbors /\ length point_neighbors = 26%nat.
Proof. split; [exact point_neighbors_nodup|reflexivity]. Qed.
Print Assumptions C22_once.
Theorem C22_distances : forall nx ny nz m root, point_neighbor_dists nx ny nz m root = map (true_dist nx ny nz m root) point_neighbors.
Proof. exact dists_spec. Qed.
Print Assumptions C22_distances.
Theorem C22_symmetric : forall nx ny nz m root o, (forall p q, p == q -> root p == root q)%Q -> 0 < nx -> 0 < ny -> 0 < nz ->
  In o point_neighbors -> In (neg3 o) point_neighbors /\ (true_dist nx ny nz m root (neg3 o) == true_dist nx ny nz m root o)%Q.
Proof.
  intros nx ny nz m root o R X Y Z' H. split; [|now apply true_dist_neg].
  destruct o as [[i j] k]. cbn [neg3]. apply point_neighbors_spec in H as [H1 H2]. apply point_neighbors_spec. split; [lia|].
  intros [= A B C]. apply H2. f_equal; [f_equal|]; lia.
Qed.
Print Assumptions C22_symmetric.
Theorem C22_faces : forall nx ny nz m root o d, In (o, d) (face_neighbors nx ny nz m root) <->
  In o point_neighbors /\ (let '(i, j, k) := o in Z.abs i + Z.abs j + Z.abs k = 1) /\ d = true_dist nx ny nz m root o.
Proof.
  intros nx ny nz m root o d. unfold face_neighbors, face_loop. rewrite dists_spec, combine_map_self, filter_In, in_map_iff. split.
  - intros [(p & [= -> <-] & H) E]. destruct o as [[i j] k]. split; [exact H|]. split; [lia|reflexivity].
  - intros (H & E & ->). split; [eauto|]. destruct o as [[i j] k]. lia.
Qed.
Print Assumptions C22_faces.
Theorem C22_faces_symmetric : forall nx ny nz m root o d, (forall p q, p == q -> root p == root q)%Q -> 0 < nx -> 0 < ny -> 0 < nz ->
  In (o, d) (face_neighbors nx ny nz m root) -> exists d', In (neg3 o, d') (face_neighbors nx ny nz m root) /\ (d' == d)%Q.
Proof.
  intros nx ny nz m root o d R X Y Z' H. apply C22_faces in H as (H & S & ->).
  destruct (C22_symmetric nx ny nz m root o R X Y Z' H) as [H1 H2]. exists (true_dist nx ny nz m root (neg3 o)). split; [|exact H2].
  apply C22_faces. repeat split; auto. destruct o as [[i j] k]. cbn [neg3]. lia.
Qed.
Print Assumptions C22_faces_symmetric.
Lemma in_unit3 d e f : In (d, e, f) unit3 <-> -1 <= d <= 1 /\ -1 <= e <= 1 /\ -1 <= f <= 1.
Proof. unfold unit3. rewrite !in_prod_iff. cbn. lia. Qed.
(** The 27 images of a grid point: the point itself, the images along one octant and its opposite, and the others. *)
Definition one_sided (o : Z * Z * Z) : Prop := let '(i, j, k) := o in (i <= 0 /\ j <= 0 /\ k <= 0) \/ (0 <= i /\ 0 <= j /\ 0 <= k).
Theorem C22_images : forall a b c, 0 < a -> 0 < b -> 0 < c -> exists l, grid_neighbor_transforms a b c = Some ((0, 0, 0) :: l) /\
  NoDup ((0, 0, 0) :: l) /\
  (forall i j k, In (i, j, k) ((0, 0, 0) :: l) <-> (i = - a \/ i = 0 \/ i = a) /\ (j = - b \/ j = 0 \/ j = b) /\ (k = - c \/ k = 0 \/ k = c)) /\
  (forall o, In o (firstn 14 l) -> one_sided o) /\ (forall o, In o (skipn 14 l) -> ~ one_sided o).
Proof.
  intros a b c A B C. destruct (transforms_spec a b c A B C) as (l & E & P). exists l. split; [exact E|]. split; [|split].
  - apply (Permutation_NoDup (Permutation_sym P)). pose proof unit3_nodup as N. revert N. generalize unit3. intros l' N.
    induction N as [|o l' NI N IH]; cbn; constructor; [|exact IH]. intros H. apply in_map_iff in H as (p & E' & H). apply (scale3_inj a b c) in E'; auto. congruence.
  - intros i j k. assert (Q : In (i, j, k) ((0, 0, 0) :: l) <-> In (i, j, k) (map (scale3 a b c) unit3)) by (split; apply Permutation_in; [exact P|now apply Permutation_sym]). rewrite Q, in_map_iff. clear. split.
    + intros ([[x y] z] & [= <- <- <-] & H). apply in_unit3 in H as (X & Y & Z). assert (X' : x = -1 \/ x = 0 \/ x = 1) by lia. assert (Y' : y = -1 \/ y = 0 \/ y = 1) by lia. assert (Z' : z = -1 \/ z = 0 \/ z = 1) by lia.
      split; [destruct X' as [->|[->| ->]]; lia|]. split; [destruct Y' as [->|[->| ->]]; lia|destruct Z' as [->|[->| ->]]; lia].
    + intros (X & Y & Z).
      assert (S : forall u w, u = - w \/ u = 0 \/ u = w -> exists s, -1 <= s <= 1 /\ u = s * w) by (intros u w [->|[->| ->]]; [exists (-1)|exists 0|exists 1]; lia).
      destruct (S _ _ X) as (x & Hx & ->), (S _ _ Y) as (y & Hy & ->), (S _ _ Z) as (z & Hz & ->). exists (x, y, z). split; [reflexivity|]. apply in_unit3. auto.
  - destruct (transforms_prefix a b c A B C _ E) as [F1 F2]. cbn [firstn skipn] in F1, F2. apply Forall_inv_tail in F1. rewrite Forall_forall in F1, F2.
    split; intros [[i j] k] H; [apply F1 in H|apply F2 in H]; unfold nonpos, nonneg3, one_sided in *; lia.
Qed.
Print Assumptions C22_images.
Example C22_ex : point_neighbor_dists 10 10 10 ((3, 4, 0) , (0, 10, 0), (0, 0, 20))%Q (fun q => q) <> [] /\
  option_map (firstn 3) (grid_neighbor_transforms 10 20 30) = Some [(0, 0, 0); (-10, -20, -30); (-10, -20, 0)] /\
  Qeq (true_dist 10 10 10 ((3, 4, 0) , (0, 10, 0), (0, 0, 20))%Q (fun q => q) (1, 0, 0)) (1 # 4).
Proof. repeat split; discriminate. Qed.

(** ** C56 *)
(** Entry [x, y, z] of the box is the voxel [point - s + (x, y, z)], wrapped. *)
Theorem C56_entries : forall (A : Type) nx ny nz (total : arr3 A) a b c s x y z, 0 <= x < s + 2 -> 0 <= y < s + 2 -> 0 <= z < s + 2 ->
  exists r col, nth_error (cubic_slice nx ny nz total (a, b, c) s) (Z.to_nat x) = Some r /\ nth_error r (Z.to_nat y) = Some col /\
    nth_error col (Z.to_nat z) = Some (total ((a - s + x) mod nx) ((b - s + y) mod ny) ((c - s + z) mod nz)).
Proof. exact @slice_nth. Qed.
Print Assumptions C56_entries.
Theorem C56_default : forall (A : Type) nx ny nz (total : arr3 A) p, length (cubic_slice nx ny nz total p 1) = 3%nat /\
  Forall (fun r => length r = 3%nat /\ Forall (fun col => length col = 3%nat) r) (cubic_slice nx ny nz total p 1).
Proof. intros A nx ny nz total p. exact (slice_length nx ny nz total p 1 ltac:(lia)). Qed.
Print Assumptions C56_default.
(** Larger boxes stop one voxel above the point and are not centred. *)
Theorem C145_size_refuted : forall s, 2 <= s -> forall (A : Type) nx ny nz (total : arr3 A) p,
  length (cubic_slice nx ny nz total p s) <> Z.to_nat (2 * s + 1).
Proof. intros s S A nx ny nz total p. rewrite (proj1 (slice_length nx ny nz total p s ltac:(lia))). lia. Qed.
Print Assumptions C145_size_refuted.
Example C56_ex : map (map (@hd Z 0)) (cubic_slice 3 3 3 (fun i j k => 100 * i + 10 * j + k) (0, 2, 0) 1) =
  [[212; 222; 202]; [12; 22; 2]; [112; 122; 102]].
Proof. reflexivity. Qed.

(** ** C57 *)
Theorem C57_bound : forall nx ny nz m root, 0 < nx /\ 0 < ny /\ 0 < nz -> (forall p q, (p <= q)%Q -> (root p <= root q)%Q) ->
  forall s t u, (-(1#2) <= s <= 1#2 -> -(1#2) <= t <= 1#2 -> -(1#2) <= u <= 1#2 ->
  root (norm2 (voxel_point nx ny nz m s t u)) <= max_point_dist nx ny nz m root)%Q.
Proof. exact max_bounds. Qed.
Print Assumptions C57_bound.
Theorem C57_corner : forall nx ny nz m root, 0 < nx /\ 0 < ny /\ 0 < nz -> (forall p q, (p <= q)%Q -> (root p <= root q)%Q) ->
  exists s t u, (s = -(1#2) \/ s = 1#2)%Q /\ (t = -(1#2) \/ t = 1#2)%Q /\ (u = -(1#2) \/ u = 1#2)%Q /\
    (max_point_dist nx ny nz m root == root (norm2 (voxel_point nx ny nz m s t u)))%Q.
Proof.
  intros nx ny nz m root N MO. destruct (max_attained nx ny nz m root N MO) as (s & t & u & I & E). exists s, t, u.
  unfold corners in I. rewrite !in_prod_iff in I. cbn [In] in I. destruct I as [[A B] C].
  split; [destruct A as [A|[A|[]]]; auto|]. split; [destruct B as [B|[B|[]]]; auto|]. split; [destruct C as [C|[C|[]]]; auto|exact E].
Qed.
Print Assumptions C57_corner.
Example C57_ex : (max_point_dist 2 2 2 ((4, 0, 0), (2, 4, 0), (0, 0, 4))%Q (fun q => q) == 17 # 4)%Q.
Proof. reflexivity. Qed.

(** ** C51 *)
(** The offsets found are those of a box around the origin whose length, rounded to twelve digits, is at most the radius; they
    come once each, by increasing length, with their lengths. *)
Theorem C51_radius : forall nx ny nz a0 a1 a2 b0 b1 b2 c0 c1 c2 root argsort, sorts argsort -> forall r,
  let (offs, ds) := get_transforms_in_radius nx ny nz ((a0, a1, a2), (b0, b1, b2), (c0, c1, c2)) root argsort r in
  let x := inject_Z nx in let y := inject_Z ny in let z := inject_Z nz in
  let length_of := fun i j k => round12 (root (norm2 (vmat (inject_Z i, inject_Z j, inject_Z k) ((a0 / x, a1 / x, a2 / x), (b0 / y, b1 / y, b2 / y), (c0 / z, c1 / z, c2 / z))%Q))) in
  NoDup offs /\ StronglySorted Qle ds /\ Forall2 (fun o d => let '(i, j, k) := o in d = length_of i j k) offs ds /\
  forall i j k, In (i, j, k) offs <->
    Z.abs i <= Qceiling (r / root (norm2 (a0, a1, a2)) * x) /\ Z.abs j <= Qceiling (r / root (norm2 (b0, b1, b2)) * y) /\
    Z.abs k <= Qceiling (r / root (norm2 (c0, c1, c2)) * z) /\ (length_of i j k <= r)%Q.
Proof.
  intros nx ny nz a0 a1 a2 b0 b1 b2 c0 c1 c2 root argsort S r. pose proof (radius_spec nx ny nz ((a0, a1, a2), (b0, b1, b2), (c0, c1, c2)) root argsort S r) as H.
  destruct (get_transforms_in_radius nx ny nz _ root argsort r) as [offs ds]. destruct H as (N & E & SS & M). intros x y z length_of. split; [exact N|]. split; [exact SS|]. split.
  - rewrite E. clear. induction offs as [|[[i j] k] l IH]; constructor; [reflexivity|exact IH].
  - intros i j k. rewrite M, candidates_spec. cbn beta iota. fold x y z. change (offset_dist nx ny nz _ root (i, j, k)) with (length_of i j k). unfold nmax. fold x y z. split; intros H; repeat split; try apply H; try lia.
Qed.
Print Assumptions C51_radius.
(** Orthogonal cells: no offset within the radius is missed. *)
Theorem C51_orthogonal : forall nx ny nz lattice root argsort, sorts argsort -> 0 < nx -> 0 < ny -> 0 < nz -> orthogonal lattice ->
  (let '(a, b, c) := lattice in forall v, In v [a; b; c] -> (0 < root (norm2 v))%Q /\ (root (norm2 v) * root (norm2 v) <= norm2 v)%Q) ->
  forall r i j k, (0 <= r)%Q -> (norm2 (vmat (over_shape nx ny nz (qvec (i, j, k))) lattice) <= r * r)%Q ->
  (offset_dist nx ny nz lattice root (i, j, k) <= r)%Q -> In (i, j, k) (fst (get_transforms_in_radius nx ny nz lattice root argsort r)).
Proof.
  intros nx ny nz lattice root argsort S X Y Z' O RT r i j k R L D. pose proof (radius_spec nx ny nz lattice root argsort S r) as H.
  destruct (get_transforms_in_radius nx ny nz lattice root argsort r) as [offs ds]. cbn [fst]. apply H. split; [|exact D]. eapply radius_complete; eauto.
Qed.
Print Assumptions C51_orthogonal.
Definition sort_idx (l : list Q) : list nat := key_sort (fun i => nth i l 0%Q) (seq 0 (length l)).
Lemma sort_idx_sorts : sorts sort_idx.
Proof.
  intros l. split; [apply Permutation_sym, key_sort_perm|].
  pose proof (key_sort_sorted (fun i => nth i l 0%Q) (seq 0 (length l))) as S. unfold sort_idx. induction S as [|a l' S IH F]; cbn; constructor; auto.
  apply Forall_forall. intros q H. apply in_map_iff in H as (t & <- & H). rewrite Forall_forall in F. auto.
Qed.
(** Skewed cells: the offset (-10, 1, 0) has length one but is not among the offsets within
    radius one. *)
Theorem C139_skewed_refuted : exists lattice o, (norm2 (vmat (over_shape 1 1 1 (qvec o)) lattice) == 1)%Q /\ (offset_dist 1 1 1 lattice rt o == 1)%Q /\
  (forall q, (0 <= q)%Q -> (0 <= rt q)%Q /\ (q <= rt q * rt q)%Q) /\ sorts sort_idx /\
  ~ In o (fst (get_transforms_in_radius 1 1 1 lattice rt sort_idx 1)).
Proof.
  exists ((1, 0, 0), (10, 1, 0), (0, 0, 1))%Q, (-10, 1, 0). split; [reflexivity|]. split; [vm_compute; reflexivity|]. split; [exact rt_spec|]. split; [exact sort_idx_sorts|].
  intros H. pose proof (radius_spec 1 1 1 ((1, 0, 0), (10, 1, 0), (0, 0, 1))%Q rt sort_idx sort_idx_sorts 1) as R.
  destruct (get_transforms_in_radius 1 1 1 ((1, 0, 0), (10, 1, 0), (0, 0, 1))%Q rt sort_idx 1) as [offs ds]. cbn [fst] in H. apply R in H as [H _].
  apply candidates_spec in H as [H _]. vm_compute in H. destruct H as [H _]. apply H. reflexivity.
Qed.
Print Assumptions C139_skewed_refuted.
Example C51_ex : fst (get_transforms_in_radius 2 2 2 ((2, 0, 0), (0, 2, 0), (0, 0, 2))%Q rt sort_idx 1) =
  [(0, 0, 0); (-1, 0, 0); (0, -1, 0); (0, 0, -1); (0, 0, 1); (0, 1, 0); (1, 0, 0)].
Proof. vm_compute. reflexivity. Qed.

(** ** C52 *)
Theorem C52_mean : forall (p0 : vec * (Z * Z * Z)) l, (forall p, In p l -> near (fst p) (fst p0)) ->
  exists r, merge_frac_coords (map lift (p0 :: l)) = Some r /\ in_cell r /\
    veq r (vmap (fun q => mod1 (match l with [] => q | _ => round12 q end)) (mean (map fst (p0 :: l)))).
Proof. exact merge_spec. Qed.
Print Assumptions C52_mean.
(** Neither lattice translations of the inputs nor their order matter. *)
Theorem C52_invariant : forall l l', l <> [] -> (forall p q, In p l -> In q l -> near (fst p) (fst q)) -> Permutation (map fst l) (map fst l') ->
  exists r r', merge_frac_coords (map lift l) = Some r /\ merge_frac_coords (map lift l') = Some r' /\ veq r r'.
Proof. exact merge_invariant. Qed.
Print Assumptions C52_invariant.
Theorem C52_weighted : forall p0 l ws, length ws = length (p0 :: l) -> ~ (qsum ws == 0)%Q -> (forall p, In p l -> near (fst p) (fst p0)) ->
  let (r, ws') := merge_frac_coords_weighted (map lift (p0 :: l)) ws in
  in_cell r /\ veq r (vmap mod1 (weighted_mean (map fst (p0 :: l)) ws)) /\ (qsum ws' == 1)%Q.
Proof. exact weighted_spec. Qed.
Print Assumptions C52_weighted.
Theorem C52_rounding : forall q, (-(1#2) <= (round12 q - q) * inject_Z tera <= 1#2)%Q.
Proof. exact round12_close. Qed.
Print Assumptions C52_rounding.
(** Points half a cell apart: a lattice translation of an input changes the result. *)
Theorem C140_half_refuted : exists u v k r r', merge_frac_coords [lift (u, (0, 0, 0)); lift (v, (0, 0, 0))] = Some r /\
  merge_frac_coords [lift (u, (0, 0, 0)); lift (v, (k, 0, 0))] = Some r' /\ ~ veq r r'.
Proof.
  exists (0, 0, 0)%Q, (1 # 2, 0, 0)%Q, 1. do 2 eexists. split; [reflexivity|]. split; [reflexivity|]. intros [E _]. revert E. vm_compute. discriminate.
Qed.
Print Assumptions C140_half_refuted.
(** The maxima merged by the Bader methods: with a false flat maximum in the group the weights
    are those of other maxima, and the merged position leaves the only remaining maximum. *)
Theorem C141_misaligned_refuted : exists c c' w, let r := group_coord [(c, w, true); (c', w, false)] in
  (0 < w)%Q /\ near c c' /\ ~ veq r (vmap mod1 c').
Proof.
  exists (1 # 10, 0, 0)%Q, (2 # 5, 0, 0)%Q, 1%Q. cbv zeta. split; [reflexivity|]. split; [repeat split; reflexivity|]. intros [E _]. revert E. vm_compute. discriminate.
Qed.
Print Assumptions C141_misaligned_refuted.
Example C52_ex : exists r, merge_frac_coords [(19 # 20, 0, 1 # 2)%Q; (1 # 20, 0, 1 # 2)%Q; (1 # 10, 0, 3 # 2)%Q] = Some r /\
  veq r (33333333333 # 1000000000000, 0, 1 # 2)%Q.
Proof. eexists. split; [reflexivity|]. vm_compute. auto. Qed.
