(** Property theorem C13: the near-grid method. *)
From Verif Require Import Base GridModel GridProofs NeighModel NeighSpec RootsModel RootsSpec ChargeModel UnionModel UnionSpec
  LabelsModel LabelsSpec LabelsLemmas RunModel RunProofs NearModel NearSpec NearProofs NearRun NearLemmas.

(** The stored gradients are the normalised central differences. *)
Theorem C13_gradients : forall nx ny nz, 2 <= nx -> 2 <= ny -> 2 <= nz ->
  forall data nbs, (forall s d, In (s, d) nbs -> unit_offset s /\ (0 < d)%Q) ->
  forall dir2lat vac, (forall v w, in_grid nx ny nz v -> in_grid nx ny nz w ->
     value_at vac w = true -> value_at vac v = false -> (value_at data w < value_at data v)%Q) ->
  forall mx, (forall v, in_grid nx ny nz v -> value_at mx v = true <-> is_maximum nx ny nz data (map fst nbs) vac v) ->
  forall v, in_grid nx ny nz v -> value_at vac v = false -> value_at mx v = false ->
  near_gradient nx ny nz data nbs dir2lat v (near_gradients nx ny nz data nbs dir2lat vac mx v) /\
  exists w, points_to nx ny nz data nbs (near_gradients nx ny nz data nbs dir2lat vac mx) v w /\
    (value_at data v < value_at data w)%Q /\ value_at vac w = false.
Proof.
  intros nx ny nz Hx Hy Hz data nbs Hnbs dir2lat vac Hvac mx Hmx v G V M.
  destruct (near_voxel_spec nx ny nz Hx Hy Hz data nbs Hnbs dir2lat vac Hvac mx Hmx v G V M) as (A & _ & _ & _ & B & C).
  split; [rewrite grad_at by assumption; exact A|]. eexists. split; [now apply points_nvox|]. auto.
Qed.
Print Assumptions C13_gradients.

(** Every climb ends, at one maximum. *)
Theorem C13_climb : forall nx ny nz, 2 <= nx -> 2 <= ny -> 2 <= nz ->
  forall data nbs, (forall s d, In (s, d) nbs -> unit_offset s /\ (0 < d)%Q) ->
  forall vac, (forall v w, in_grid nx ny nz v -> in_grid nx ny nz w ->
     value_at vac w = true -> value_at vac v = false -> (value_at data w < value_at data v)%Q) ->
  forall mx, (forall v, in_grid nx ny nz v -> value_at mx v = true <-> is_maximum nx ny nz data (map fst nbs) vac v) ->
  forall grad, (forall v, in_grid nx ny nz v -> le3 (grad v) 1) ->
  forall v, in_grid nx ny nz v -> value_at vac v = false ->
  exists m, is_maximum nx ny nz data (map fst nbs) vac m /\ forall m',
    climbs_to nx ny nz data nbs grad (fun v => value_at vac v = true) (fun v => value_at mx v = true) v m' <-> m' = m.
Proof.
  intros nx ny nz Hx Hy Hz data nbs Hnbs vac Hvac mx Hmx grad Hg v G V.
  destruct (climbs_exists nx ny nz Hx Hy Hz data nbs Hnbs vac Hvac mx Hmx grad Hg v G V) as (m & C & T).
  exists m. split; [exact T|]. intros m'. split; [|now intros ->].
  intros C'. exact (climbs_fun nx ny nz Hx Hy Hz data nbs Hnbs vac mx grad v m' m G C' C).
Qed.
Print Assumptions C13_climb.

(** One pass: whatever the interleaving, the same memory, and every refined voxel
    carries the label of the maximum its climb ends at. *)
Theorem C13_pass : forall nx ny nz, 2 <= nx -> 2 <= ny -> 2 <= nz ->
  forall data nbs, (forall s d, In (s, d) nbs -> unit_offset s /\ (0 < d)%Q) ->
  forall vac, (forall v w, in_grid nx ny nz v -> in_grid nx ny nz w ->
     value_at vac w = true -> value_at vac v = false -> (value_at data w < value_at data v)%Q) ->
  forall mx, (forall v, in_grid nx ny nz v -> value_at mx v = true <-> is_maximum nx ny nz data (map fst nbs) vac v) ->
  forall grad, (forall v, in_grid nx ny nz v -> le3 (grad v) 1) ->
  forall m, (forall u, in_grid nx ny nz u -> m_lab m u = 0 <-> value_at vac u = true) ->
  (forall u, in_grid nx ny nz u -> m_mask m u = true -> m_lab m u < 0) ->
  forall sched1 sched2 m1 m2 ths1 ths2,
  pass_threads nx ny nz data nbs grad mx m sched1 = (m1, ths1) -> forallb finished ths1 = true ->
  pass_threads nx ny nz data nbs grad mx m sched2 = (m2, ths2) -> forallb finished ths2 = true ->
  (forall u, in_grid nx ny nz u -> m_lab m1 u = m_lab m2 u /\ m_mask m1 u = m_mask m2 u) /\
  existsb reassigned ths1 = existsb reassigned ths2 /\
  (forall u, in_grid nx ny nz u -> m_mask m u = true -> exists d,
     climbs_to nx ny nz data nbs grad (fun v => value_at vac v = true) (fun v => value_at mx v = true) u d /\
     is_maximum nx ny nz data (map fst nbs) vac d /\ m_lab m1 u = - Z.abs (m_lab m d) /\ m_mask m1 u = false).
Proof. exact pass_independent. Qed.
Print Assumptions C13_pass.

(** The whole run.  [first] is the labelling before the refinement (by following the
    pointers); the result is fixed by [first] and the climbs alone, hence the same for
    all interleavings [scheds]; and schedules giving each thread enough turns complete. *)
Theorem C13_run : forall nx ny nz, 2 <= nx -> 2 <= ny -> 2 <= nz ->
  forall data nbs, (forall s d, In (s, d) nbs -> unit_offset s /\ (0 < d)%Q) ->
  forall dir2lat vac, (forall v w, in_grid nx ny nz v -> in_grid nx ny nz w ->
     value_at vac w = true -> value_at vac v = false -> (value_at data w < value_at data v)%Q) ->
  (forall v, in_grid nx ny nz v -> (low_start < value_at data v)%Q) ->
  forall order1 order2 order3, covers nx ny nz order1 -> covers nx ny nz order2 -> covers nx ny nz order3 ->
  forall same sorted, (forall l a b, (a < length l)%nat -> (b < length l)%nat -> exists r, same l a b = Done r) ->
  (forall l, Permutation (sorted l) (seq 0 (length l)) /\
    StronglySorted (fun a b => (value_at data (nth b l (0, 0, 0)%Z) <= value_at data (nth a l (0, 0, 0)%Z))%Q) (sorted l)) ->
  forall num_vacuum, (num_vacuum = 0 -> forall v, in_grid nx ny nz v -> value_at vac v = false) ->
  forall fuel scheds, (2 * Z.to_nat (nx * ny * nz) + 2 <= fuel)%nat ->
  let N := Z.to_nat (nx * ny * nz) in
  let mask := get_maxima nx ny nz data (map fst nbs) vac false order1 in
  let maxima := argwhere nx ny nz mask in
  let mx := reshape false mask ny nz in
  let grad := near_gradients nx ny nz data nbs dir2lat vac mx in
  let top := fun v => value_at mx v = true in
  let vacuum := fun v => value_at vac v = true in
  exists bs L0 E first res,
    near_run nx ny nz data nbs dir2lat vac num_vacuum same sorted order1 order2 order3 fuel scheds = Done (res, bs) /\
    merged nx ny nz data (map fst nbs) vac maxima (same maxima) (sorted maxima) L0 (map fst bs) E /\
    (forall v, in_grid nx ny nz v -> value_at vac v = true -> first v = -1) /\
    (forall v, in_grid nx ny nz v -> value_at vac v = false -> exists m b,
       drifts nx ny nz data nbs grad top v m /\ is_maximum nx ny nz data (map fst nbs) vac m /\ In b (map fst bs) /\
       connected E (voxel_number ny nz m) (voxel_number ny nz b) /\ first v = Z.of_nat (rank ny nz (map fst bs) b)) /\
    (forall lab, res = Some lab ->
      forall v, in_grid nx ny nz v -> (value_at vac v = true -> lab v = -1) /\
       (value_at vac v = false ->
          (refined nx ny nz data nbs grad vacuum top (boundary nx ny nz data nbs vac first) first v /\
             exists m, climbs_to nx ny nz data nbs grad vacuum top v m /\
               is_maximum nx ny nz data (map fst nbs) vac m /\ lab v = first m) \/
          (~ refined nx ny nz data nbs grad vacuum top (boundary nx ny nz data nbs vac first) first v /\ lab v = first v))) /\
    ((N <= length scheds)%nat ->
     (forall s t, In s scheds -> (t < N)%nat -> (step_bound nx ny nz nbs <= count_occ Nat.eq_dec s t)%nat) ->
     res <> None).
Proof. exact near_run_correct. Qed.
Print Assumptions C13_run.

Theorem C13_conserves : forall nx ny nz, 2 <= nx -> 2 <= ny -> 2 <= nz ->
  forall data nbs, (forall s d, In (s, d) nbs -> unit_offset s /\ (0 < d)%Q) ->
  forall dir2lat vac, (forall v w, in_grid nx ny nz v -> in_grid nx ny nz w ->
     value_at vac w = true -> value_at vac v = false -> (value_at data w < value_at data v)%Q) ->
  (forall v, in_grid nx ny nz v -> (low_start < value_at data v)%Q) ->
  forall order1 order2 order3, covers nx ny nz order1 -> covers nx ny nz order2 -> covers nx ny nz order3 ->
  forall same sorted, (forall l a b, (a < length l)%nat -> (b < length l)%nat -> exists r, same l a b = Done r) ->
  (forall l, Permutation (sorted l) (seq 0 (length l)) /\
    StronglySorted (fun a b => (value_at data (nth b l (0, 0, 0)%Z) <= value_at data (nth a l (0, 0, 0)%Z))%Q) (sorted l)) ->
  forall num_vacuum, (num_vacuum = 0 -> forall v, in_grid nx ny nz v -> value_at vac v = false) ->
  forall fuel scheds, (2 * Z.to_nat (nx * ny * nz) + 2 <= fuel)%nat ->
  forall lab bs charge vol, length charge = Z.to_nat (nx * ny * nz) ->
  near_run nx ny nz data nbs dir2lat vac num_vacuum same sorted order1 order2 order3 fuel scheds = Done (Some lab, bs) ->
  let r := get_basin_charges_and_volumes charge (map lab (voxels nx ny nz)) vol (length bs) in
    length (i_charges r) = length bs /\
    (qsum (i_charges r) + i_vcharge r == qsum charge / inject_Z (nx * ny * nz))%Q /\
    (qsum (i_volumes r) + i_vvolume r == vol)%Q.
Proof. exact near_conserves. Qed.
Print Assumptions C13_conserves.

(** Finding: when vacuum voxels can lie above others in the reference grid, the on-grid
    fallback steps into the vacuum and a climb never ends. *)
Theorem C124_vacuum_hang_refuted : exists data vac, forall m k, m_lab m (0, 0, 2) = 0 ->
  let mx := reshape false (get_maxima 1 1 5 data (map fst nbz) vac false (seq 0 5)) 1 5 in
  value_at vac (0, 0, 1) = false /\
  forallb finished (snd (run_threads 1 1 5 data nbz (near_gradients 1 1 5 data nbz id3 vac mx) mx
    (repeat 0%nat (S (S k))) (m, [RStart (0, 0, 1)]))) = false.
Proof.
  exists vh_data, vh_vac. intros m k H mx. split; [reflexivity|]. destruct (vh_step m (RStart (0, 0, 1))) as (lab & path & K).
  change mx with vh_mx. rewrite (K H eq_refl k). reflexivity.
Qed.
Print Assumptions C124_vacuum_hang_refuted.

Example C13_ex :
  ng_run (repeat round_robin 4) =
    Some ([0; 2; 1; 0; 2; 2; 1; 0; 2; 2; 2; 2; 3; 3; 3; 4; 3; 3; 4; 4; 3; 4; 4; 4],
          [(0, 0, 3); (0, 1, 2); (0, 2, 1); (1, 0, 1); (1, 2, 2)]) /\
  ng_run (repeat one_by_one 4) = ng_run (repeat round_robin 4).
Proof. split; vm_compute; reflexivity. Qed.
