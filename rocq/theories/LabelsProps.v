(** Property theorems C20, C08 and the end-to-end form of C05/C07. *)
From Verif Require Import Base GridModel NeighModel NeighSpec RootsModel RootsSpec UnionModel UnionSpec
  ChargeModel LabelsModel LabelsSpec LabelsProofs RunModel RunProofs LabelsLemmas.

(** ** C20 *)
Theorem C20_merging : forall nx ny nz, 0 < nx -> 0 < ny -> 0 < nz ->
  forall data nbs, (forall s d, In (s, d) nbs -> unit_offset s /\ (0 < d)%Q) ->
  forall vac, (forall v w, in_grid nx ny nz v -> in_grid nx ny nz w ->
     value_at vac w = true -> value_at vac v = false -> (value_at data w < value_at data v)%Q) ->
  forall mask, length mask = Z.to_nat (nx * ny * nz) ->
  (forall v, in_grid nx ny nz v ->
     nth (voxel_number ny nz v) mask false = true <-> is_maximum nx ny nz data (map fst nbs) vac v) ->
  forall maxima, NoDup maxima ->
  (forall v, In v maxima <-> in_grid nx ny nz v /\ nth (voxel_number ny nz v) mask false = true) ->
  forall same, (forall a b, (a < length maxima)%nat -> (b < length maxima)%nat -> exists r, same a b = Done r) ->
  forall sorted, Permutation sorted (seq 0 (length maxima)) ->
  StronglySorted (fun a b => (value_at data (nth b maxima (0, 0, 0)%Z) <= value_at data (nth a maxima (0, 0, 0)%Z))%Q) sorted ->
  (forall v, in_grid nx ny nz v -> (low_start < value_at data v)%Q) ->
  forall fuel, (2 * Z.to_nat (nx * ny * nz) + 2 <= fuel)%nat ->
  exists lab bs mask' E,
    initialize_labels nx ny nz data nbs fuel mask maxima same sorted = Done (lab, bs, mask') /\
    mask' = mask /\
    Forall (fun bq => position_of nx ny nz (fst bq) (snd bq)) bs /\
    merged nx ny nz data (map fst nbs) vac maxima same sorted lab (map fst bs) E.
Proof. exact initialize_correct. Qed.
Print Assumptions C20_merging.

(** A peak of a profile is higher than the value before it and not lower than the one after it; the ends have one neighbour. *)
Definition peak (vs : list Q) (k : nat) : Prop := (k < length vs)%nat /\
  ((0 < k)%nat -> (nth (k - 1) vs 0 < nth k vs 0)%Q) /\ ((k + 1 < length vs)%nat -> (nth (k + 1) vs 0 <= nth k vs 0)%Q).
Lemma peaks_peak vs : (2 <= length vs)%nat -> forall k, In k (profile_maxima vs) <-> peak vs k.
Proof.
  intros L k. unfold profile_maxima, peak. fold (vat vs k) (vat vs (k - 1)) (vat vs (k + 1)).
  assert (IN : In k (inner_maxima vs) <-> (0 < k < length vs - 1)%nat /\ (vat vs (k - 1) < vat vs k)%Q /\ (vat vs (k + 1) <= vat vs k)%Q).
  { unfold inner_maxima. rewrite filter_In, in_seq, andb_true_iff, Qltb_lt, Qle_bool_iff. split; intros (H1 & H2 & H3); repeat split; auto; lia. }
  assert (A : In k (if Qle_bool (vat vs 1) (vat vs 0) then 0%nat :: inner_maxima vs else inner_maxima vs) <-> (k = 0%nat /\ (vat vs 1 <= vat vs 0)%Q) \/ In k (inner_maxima vs)).
  { destruct (Qle_bool (vat vs 1) (vat vs 0)) eqn:E; cbn [In].
    - apply Qle_bool_iff in E. intuition auto.
    - split; [auto|]. intros [[_ H]|H]; [|exact H]. apply Qle_bool_iff in H. congruence. }
  assert (B : In k (if Qltb (vat vs (length vs - 2)) (vat vs (length vs - 1))
      then (if Qle_bool (vat vs 1) (vat vs 0) then 0%nat :: inner_maxima vs else inner_maxima vs) ++ [(length vs - 1)%nat]
      else if Qle_bool (vat vs 1) (vat vs 0) then 0%nat :: inner_maxima vs else inner_maxima vs) <->
    ((k = 0%nat /\ (vat vs 1 <= vat vs 0)%Q) \/ In k (inner_maxima vs)) \/ (k = (length vs - 1)%nat /\ (vat vs (length vs - 2) < vat vs (length vs - 1))%Q)).
  { destruct (Qltb_spec (vat vs (length vs - 2)) (vat vs (length vs - 1))) as [E|E].
    - rewrite in_app_iff, A. cbn [In]. intuition auto.
    - rewrite A. split; [auto|]. intros [H|[_ H]]; [exact H|exfalso; lra]. }
  cbv zeta. rewrite B, IN. split.
  - intros [[[-> H]|(H1 & H2 & H3)]|[-> H]].
    + split; [lia|]. split; [lia|]. intros _. exact H.
    + split; [lia|]. auto.
    + split; [lia|]. split; [|lia]. intros _. replace (length vs - 1 - 1)%nat with (length vs - 2)%nat by lia. exact H.
  - intros (H1 & H2 & H3). destruct (Nat.eq_dec k 0) as [->|K0]; [left; left; split; [reflexivity|apply H3; lia]|].
    destruct (Nat.eq_dec k (length vs - 1)) as [->|K1].
    + right. split; [reflexivity|]. specialize (H2 ltac:(lia)). replace (length vs - 1 - 1)%nat with (length vs - 2)%nat in H2 by lia. exact H2.
    + left. right. split; [lia|]. split; [apply H2; lia|apply H3; lia].
Qed.
Lemma sorted_peaks vs : (2 <= length vs)%nat -> StronglySorted lt (profile_maxima vs).
Proof.
  intros L. assert (FS : forall p a n, StronglySorted lt (filter p (seq a n))).
  { intros p a n. revert a. induction n as [|n IH]; intros a; [constructor|]. cbn [seq filter]. destruct (p a); [|apply IH]. constructor; [apply IH|].
    apply Forall_forall. intros x X. apply filter_In in X as [X _]. apply in_seq in X. lia. }
  assert (RG : forall x, In x (inner_maxima vs) -> (0 < x < length vs - 1)%nat) by (intros x X; unfold inner_maxima in X; apply filter_In in X as [X _]; apply in_seq in X; lia).
  assert (S1 : StronglySorted lt (if Qle_bool (vat vs 1) (vat vs 0) then 0%nat :: inner_maxima vs else inner_maxima vs) /\
    forall x, In x (if Qle_bool (vat vs 1) (vat vs 0) then 0%nat :: inner_maxima vs else inner_maxima vs) -> (x < length vs - 1)%nat).
  { destruct (Qle_bool _ _).
    - split; [constructor; [apply FS|apply Forall_forall; intros x X; apply RG in X; lia]|]. intros x [<-|X]; [lia|apply RG in X; lia].
    - split; [apply FS|]. intros x X. apply RG in X. lia. }
  unfold profile_maxima. cbv zeta. destruct (Qltb _ _); [|apply S1]. destruct S1 as [S1 R]. revert S1 R. generalize (if Qle_bool (vat vs 1) (vat vs 0) then 0%nat :: inner_maxima vs else inner_maxima vs). intros l S1 R.
  induction S1 as [|x l S1 IH F]; cbn [app]; [constructor; [constructor|constructor]|]. constructor; [apply IH; intros y Y; apply R; now right|].
  apply Forall_app. split; [exact F|]. constructor; [apply R; now left|constructor].
Qed.
Lemma last_below_nearest l m x : StronglySorted lt l -> last_below m l = Some x -> In x l /\ (x < m)%nat /\ forall y, In y l -> (y < m)%nat -> (y <= x)%nat.
Proof.
  intros S. unfold last_below. assert (S' : StronglySorted lt (filter (fun x => Nat.ltb x m) l)).
  { induction S as [|a l S IH F]; [constructor|]. cbn [filter]. destruct (Nat.ltb a m); [|exact IH]. constructor; [exact IH|]. rewrite Forall_forall in *. intros y Y. apply filter_In in Y as [Y _]. auto. }
  assert (M : forall y, In y (filter (fun x => Nat.ltb x m) l) <-> In y l /\ (y < m)%nat) by (intros y; rewrite filter_In, Nat.ltb_lt; reflexivity).
  revert S' M. generalize (filter (fun x => Nat.ltb x m) l). intros f S' M E. destruct (rev f) as [|z t] eqn:R; [discriminate|]. injection E as ->.
  assert (EF : f = rev t ++ [x]) by (rewrite <- (rev_involutive f), R; reflexivity). assert (X : In x f) by (rewrite EF; apply in_or_app; right; now left).
  split; [now apply M|]. split; [now apply M|]. intros y Y1 Y2. assert (Y : In y f) by now apply M. rewrite EF in Y. apply in_app_iff in Y as [Y|[->|[]]]; [|lia].
  rewrite EF in S'. clear - S' Y. induction (rev t) as [|a u IH]; [contradiction|]. cbn [app] in S'. apply StronglySorted_inv in S' as [S1 F]. rewrite Forall_forall in F. destruct Y as [->|Y]; [|auto].
  specialize (F x ltac:(apply in_or_app; right; now left)). lia.
Qed.
Lemma first_above_nearest l m x : StronglySorted lt l -> first_above m l = Some x -> In x l /\ (m < x)%nat /\ forall y, In y l -> (m < y)%nat -> (x <= y)%nat.
Proof.
  intros S. unfold first_above. induction S as [|a l S IH F]; [discriminate|]. cbn [filter]. destruct (Nat.ltb_spec m a) as [K|K].
  - intros E. injection E as ->. split; [now left|]. split; [exact K|]. intros y [->|Y] _; [lia|]. rewrite Forall_forall in F. specialize (F y Y). lia.
  - intros E. destruct (IH E) as (A & B & C). split; [now right|]. split; [exact B|]. intros y [->|Y] L; [lia|auto].
Qed.
(** [l] and [r] are the peaks next to [m] on its two sides. *)
Definition between_peaks (vs : list Q) (l m r : nat) : Prop :=
  (l < m < r)%nat /\ peak vs l /\ peak vs r /\ forall k, (l < k < r)%nat -> ~ peak vs k.
Definition lowest_here (vs : list Q) (m : nat) : Prop := (0 < m < length vs - 1)%nat /\
  (nth m vs 0 < nth (m - 1) vs 0)%Q /\ (nth m vs 0 <= nth (m + 1) vs 0)%Q.
(** Where both ends are peaks, two maxima are taken for one exactly if no inner minimum lies deeper below the higher of the
    two peaks next to it than the tolerance allows; every inner minimum has such peaks. *)
Theorem C20_profile_test : forall tol vs, (2 <= length vs)%nat -> peak vs 0 -> peak vs (length vs - 1) ->
  exists r, no_valley tol vs = Done r /\
    (forall m, lowest_here vs m -> exists l r, between_peaks vs l m r) /\
    (r = true <-> forall l m r h, lowest_here vs m -> between_peaks vs l m r ->
       (nth l vs 0 <= h)%Q -> (nth r vs 0 <= h)%Q -> (h == nth l vs 0 \/ h == nth r vs 0)%Q -> ((h - nth m vs 0) / h <= tol)%Q).
Proof.
  intros tol vs L P0 Pn.
  destruct (no_valley_spec tol vs L) as (b & E & H).
  { destruct P0 as (_ & _ & P0). apply P0. lia. }
  { destruct Pn as (_ & Pn & _). specialize (Pn ltac:(lia)). replace (length vs - 1 - 1)%nat with (length vs - 2)%nat in Pn by lia. exact Pn. }
  pose proof (sorted_peaks vs L) as S. pose proof (peaks_peak vs L) as PK.
  assert (NP : forall m, lowest_here vs m -> ~ peak vs m) by (intros m (R & A & _) (_ & B & _); specialize (B ltac:(lia)); lra).
  assert (BT : forall m l r, lowest_here vs m -> last_below m (profile_maxima vs) = Some l -> first_above m (profile_maxima vs) = Some r -> between_peaks vs l m r).
  { intros m l r' M El Er. apply (last_below_nearest _ _ _ S) in El as (A1 & A2 & A3). apply (first_above_nearest _ _ _ S) in Er as (B1 & B2 & B3).
    split; [lia|]. split; [now apply PK|]. split; [now apply PK|]. intros k K P. pose proof P as Q. apply PK in Q. destruct (Nat.lt_trichotomy k m) as [T|[T|T]]; [specialize (A3 k Q T); lia|rewrite T in P; exact (NP m M P)|specialize (B3 k Q T); lia]. }
  assert (EX : forall m, lowest_here vs m -> exists l r, last_below m (profile_maxima vs) = Some l /\ first_above m (profile_maxima vs) = Some r).
  { intros m M. destruct (last_below_some m (profile_maxima vs)) as (l & El); [exists 0%nat; split; [now apply PK|destruct M; lia]|].
    destruct (first_above_some m (profile_maxima vs)) as (r' & Er); [exists (length vs - 1)%nat; split; [now apply PK|destruct M; lia]|]. eauto. }
  assert (MX : forall a b, ((a <= Qmax2 a b) /\ (b <= Qmax2 a b) /\ (Qmax2 a b == a \/ Qmax2 a b == b))%Q).
  { intros a c. unfold Qmax2. destruct (Qltb_spec a c); repeat split; lra. }
  exists b. split; [exact E|]. split.
  - intros m M. destruct (EX m M) as (l & r' & El & Er). exists l, r'. now apply BT.
  - rewrite H. clear H. split.
    + intros H l m r' h M B H1 H2 H3. destruct M as (M0 & M1 & M2). destruct (H m M0 M1 M2) as (l2 & r2 & El & Er & K).
      assert (M : lowest_here vs m) by (split; auto). pose proof (BT m l2 r2 M El Er) as B2.
      assert (l2 = l /\ r2 = r') as [-> ->].
      { destruct B as (B1 & PL & PR & BU), B2 as (B1' & PL' & PR' & BU'). split.
        - destruct (Nat.lt_trichotomy l l2) as [T|[T|T]]; [|auto|].
          + destruct (BU l2 ltac:(lia) PL').
          + destruct (BU' l ltac:(lia) PL).
        - destruct (Nat.lt_trichotomy r' r2) as [T|[T|T]]; [|auto|].
          + destruct (BU' r' ltac:(lia) PR).
          + destruct (BU r2 ltac:(lia) PR'). }
      cbv zeta in K. destruct (MX (vat vs l) (vat vs r')) as (X1 & X2 & X3). assert (EQ : (h == Qmax2 (vat vs l) (vat vs r'))%Q).
      { unfold vat in *. destruct H3 as [H3|H3], X3 as [X3|X3]; lra. }
      rewrite EQ. exact K.
    + intros H m M0 M1 M2. assert (M : lowest_here vs m) by (split; auto). destruct (EX m M) as (l & r' & El & Er). exists l, r'. split; [exact El|]. split; [exact Er|]. cbv zeta.
      destruct (MX (vat vs l) (vat vs r')) as (X1 & X2 & X3). exact (H l m r' _ M (BT m l r' M El Er) X1 X2 X3).
Qed.
Print Assumptions C20_profile_test.

(** Finding: the climb away from a false maximum never ends when its equally high
    neighbour is a vacuum voxel (vacuum taken from the charge grid, maxima from
    another reference grid). *)
Theorem C132_vacuum_hang_refuted : exists data vac, forall same sorted fuel,
  let mask := get_maxima 1 1 4 data (map fst nb4) vac false (seq 0 4) in
  initialize_labels 1 1 4 data nb4 fuel mask (argwhere 1 1 4 mask) same sorted = Running.
Proof. exists hg_data, hg_vac. exact hg_hangs. Qed.
Print Assumptions C132_vacuum_hang_refuted.

(** Finding: the profile test reads past the end of its list of maxima when the
    profile ends in a flat stretch, and past the profile when it has one point
    (distance at most 0.05). *)
Theorem C133_profile_raises_refuted : exists v1 v2, no_valley (1 # 100000) v1 = Raised /\ no_valley (1 # 100000) v2 = Raised /\
  length v1 = 3%nat /\ length v2 = 1%nat.
Proof. exists [2; 1; 1]%Q, [3%Q]. split; [apply no_valley_raises|]. split; [apply no_valley_raises|]. split; reflexivity. Qed.
Print Assumptions C133_profile_raises_refuted.

(** A plateau left at one end: both its voxels are merged into the higher maximum. *)
Example C20_ex : exists L0 bs mask,
  let m0 := get_maxima 1 1 6 pl_data (map fst nb4) no_vac false (seq 0 6) in
  m0 = [false; true; true; false; true; false] /\
  initialize_labels 1 1 6 pl_data nb4 20 m0 (argwhere 1 1 6 m0) (fun _ _ => Done false) [2; 0; 1]%nat
    = Done (L0, bs, mask) /\ L0 = [-1; 4; 4; -1; 4; -1] /\ map fst bs = [(0, 0, 4)] /\ mask = m0.
Proof. exact pl_run. Qed.
Example C20_ex_false : false_maximum 1 1 6 pl_data (map fst nb4) no_vac (0, 0, 1).
Proof. exact pl_false. Qed.
Example C20_ex_sorted : Permutation [2; 0; 1]%nat (seq 0 3) /\
  StronglySorted (fun a b => (value_at pl_data (nth b pl_maxima (0, 0, 0)%Z) <=
     value_at pl_data (nth a pl_maxima (0, 0, 0)%Z))%Q) [2; 0; 1]%nat.
Proof. exact ex_descending. Qed.
Example C20_ex_peaks : peak [5; 4; 5; 6]%Q 0 /\ peak [5; 4; 5; 6]%Q 3 /\ lowest_here [5; 4; 5; 6]%Q 1 /\ between_peaks [5; 4; 5; 6]%Q 0 1 3.
Proof.
  assert (A : peak [5; 4; 5; 6]%Q 0) by (split; [cbn; lia|split; cbn; [lia|lra]]). assert (B : peak [5; 4; 5; 6]%Q 3) by (split; [cbn; lia|split; cbn; [lra|lia]]).
  split; [exact A|]. split; [exact B|]. split; [split; [cbn; lia|split; cbn; lra]|]. split; [lia|]. split; [exact A|]. split; [exact B|].
  intros k K (_ & P1 & P2). destruct k as [|[|[|k]]]; [lia| | |lia].
  - specialize (P1 ltac:(lia)). cbn in P1. lra.
  - specialize (P2 ltac:(cbn; lia)). cbn in P2. lra.
Qed.
Example C20_ex_profile : no_valley (1 # 10) [5; 4; 5; 6]%Q = Done false /\ no_valley (2 # 5) [5; 4; 5; 6]%Q = Done true.
Proof. split; reflexivity. Qed.

(** ** C05, the whole run *)
Theorem C05_run : forall nx ny nz, 0 < nx -> 0 < ny -> 0 < nz ->
  forall data nbs, (forall s d, In (s, d) nbs -> unit_offset s /\ (0 < d)%Q) ->
  forall vac, (forall v w, in_grid nx ny nz v -> in_grid nx ny nz w ->
     value_at vac w = true -> value_at vac v = false -> (value_at data w < value_at data v)%Q) ->
  (forall v, in_grid nx ny nz v -> (low_start < value_at data v)%Q) ->
  forall order1 order2, covers nx ny nz order1 -> covers nx ny nz order2 ->
  forall same sorted,
  (forall l a b, (a < length l)%nat -> (b < length l)%nat -> exists r, same l a b = Done r) ->
  (forall l, Permutation (sorted l) (seq 0 (length l)) /\
     StronglySorted (fun a b => (value_at data (nth b l (0, 0, 0)%Z) <= value_at data (nth a l (0, 0, 0)%Z))%Q) (sorted l)) ->
  forall num_vacuum, (num_vacuum = 0 -> forall v, in_grid nx ny nz v -> value_at vac v = false) ->
  forall fuel, (2 * Z.to_nat (nx * ny * nz) + 2 <= fuel)%nat ->
  exists lab bs L0 E,
    let maxima := argwhere nx ny nz (get_maxima nx ny nz data (map fst nbs) vac false order1) in
    ongrid_run nx ny nz data nbs vac num_vacuum same sorted order1 order2 fuel = Done (lab, bs) /\
    merged nx ny nz data (map fst nbs) vac maxima (same maxima) (sorted maxima) L0 (map fst bs) E /\
    length lab = Z.to_nat (nx * ny * nz) /\
    (forall v, in_grid nx ny nz v -> value_at vac v = true -> nth_error lab (voxel_number ny nz v) = Some (-1)) /\
    (forall v, in_grid nx ny nz v -> value_at vac v = false ->
       exists m b, ascends nx ny nz data nbs v m /\ is_maximum nx ny nz data (map fst nbs) vac m /\
         In b (map fst bs) /\ connected E (voxel_number ny nz m) (voxel_number ny nz b) /\
         nth_error lab (voxel_number ny nz v) = Some (Z.of_nat (rank ny nz (map fst bs) b))).
Proof. exact run_correct. Qed.
Print Assumptions C05_run.

Theorem C07_run_conserves : forall nx ny nz, 0 < nx -> 0 < ny -> 0 < nz ->
  forall data nbs, (forall s d, In (s, d) nbs -> unit_offset s /\ (0 < d)%Q) ->
  forall vac, (forall v w, in_grid nx ny nz v -> in_grid nx ny nz w ->
     value_at vac w = true -> value_at vac v = false -> (value_at data w < value_at data v)%Q) ->
  (forall v, in_grid nx ny nz v -> (low_start < value_at data v)%Q) ->
  forall order1 order2, covers nx ny nz order1 -> covers nx ny nz order2 ->
  forall same sorted,
  (forall l a b, (a < length l)%nat -> (b < length l)%nat -> exists r, same l a b = Done r) ->
  (forall l, Permutation (sorted l) (seq 0 (length l)) /\
     StronglySorted (fun a b => (value_at data (nth b l (0, 0, 0)%Z) <= value_at data (nth a l (0, 0, 0)%Z))%Q) (sorted l)) ->
  forall num_vacuum, (num_vacuum = 0 -> forall v, in_grid nx ny nz v -> value_at vac v = false) ->
  forall fuel charge vol, (2 * Z.to_nat (nx * ny * nz) + 2 <= fuel)%nat -> length charge = Z.to_nat (nx * ny * nz) ->
  exists lab bs, ongrid_run nx ny nz data nbs vac num_vacuum same sorted order1 order2 fuel = Done (lab, bs) /\
    let r := get_basin_charges_and_volumes charge lab vol (length bs) in
    length (i_charges r) = length bs /\
    (qsum (i_charges r) + i_vcharge r == qsum charge / inject_Z (nx * ny * nz))%Q /\
    (qsum (i_volumes r) + i_vvolume r == vol)%Q.
Proof. exact run_conserves. Qed.
Print Assumptions C07_run_conserves.

(** ** C08 *)
(** By [C05_run] the voxels of the representative [b] carry label [rank b], so the
    i-th reported position belongs to label i for every i exactly when the
    representatives are listed in voxel order. *)
Theorem C08_aligned_iff_sorted : forall ny nz reps,
  (forall i b, nth_error reps i = Some b -> rank ny nz reps b = i) <->
  StronglySorted (fun a b => (voxel_number ny nz a < voxel_number ny nz b)%nat) reps.
Proof. intros ny nz reps. split; [apply sorted_rank|apply rank_sorted]. Qed.
Print Assumptions C08_aligned_iff_sorted.

(** Finding: the on-grid (and near-grid) methods list the positions in the order of
    the union-find roots but number the basins in the order of the representatives:
    position 0 is the maximum of basin 1 and vice versa. *)
Theorem C123_positions_swapped_refuted : exists data lab bs,
  ongrid_run 1 2 7 data nb4 no_vac 0 never (fun _ => [0; 2; 1]%nat) (seq 0 14) (seq 0 14) 40 = Done (lab, bs) /\
  map fst bs = [(0, 1, 0); (0, 0, 3)] /\
  nth_error lab (voxel_number 2 7 (0, 1, 0)) = Some 1 /\ nth_error lab (voxel_number 2 7 (0, 0, 3)) = Some 0.
Proof. exists tw_data. exact tw_ordered. Qed.
Print Assumptions C123_positions_swapped_refuted.

Example C08_ex : rank 2 7 [(0, 1, 0); (0, 0, 3)] (0, 1, 0) = 1%nat /\ rank 2 7 [(0, 0, 3); (0, 1, 0)] (0, 1, 0) = 1%nat.
Proof. split; reflexivity. Qed.
Example C08_ex_hyp : forall s d, In (s, d) nb4 -> unit_offset s /\ (0 < d)%Q.
Proof. exact nb4_ok. Qed.
