(** Pass determinism, conservation and the concrete instances used by [NearProps]. *)
From Verif Require Import Base GridModel GridProofs NeighModel NeighSpec NeighProofs RootsModel RootsSpec ChargeModel ChargeProofs UnionModel UnionSpec
  LabelsModel LabelsSpec LabelsProofs LabelsLemmas RunModel RunProofs NearModel NearSpec NearProofs NearRun.

Definition same_memory nx ny nz (m m' : memory) : Prop :=
  forall u, in_grid nx ny nz u -> m_lab m u = m_lab m' u /\ m_mask m u = m_mask m' u.

Lemma pass_independent : forall nx ny nz, 2 <= nx -> 2 <= ny -> 2 <= nz ->
  forall data nbs, (forall s d, In (s, d) nbs -> unit_offset s /\ (0 < d)%Q) ->
  forall vac, (forall v w, in_grid nx ny nz v -> in_grid nx ny nz w ->
     value_at vac w = true -> value_at vac v = false -> (value_at data w < value_at data v)%Q) ->
  forall mx, (forall v, in_grid nx ny nz v -> value_at mx v = true <-> is_maximum nx ny nz data (map fst nbs) vac v) ->
  forall grad, (forall v, in_grid nx ny nz v -> le3 (grad v) 1) ->
  forall m, (forall u, in_grid nx ny nz u -> m_lab m u = 0 <-> value_at vac u = true) ->
  (forall u, in_grid nx ny nz u -> m_mask m u = true -> m_lab m u < 0) ->
  forall sched1 sched2 m1 m2 ths1 ths2,
  pass_threads nx ny nz data nbs grad mx m sched1 = (m1, ths1) -> forallb finished ths1 = true ->
  pass_threads nx ny nz data nbs grad mx m sched2 = (m2, ths2) -> forallb finished ths2 = true ->
  same_memory nx ny nz m1 m2 /\ existsb reassigned ths1 = existsb reassigned ths2 /\
  (forall u, in_grid nx ny nz u -> m_mask m u = true -> exists d,
     climbs_to nx ny nz data nbs grad (fun v => value_at vac v = true) (fun v => value_at mx v = true) u d /\
     is_maximum nx ny nz data (map fst nbs) vac d /\ m_lab m1 u = - Z.abs (m_lab m d) /\ m_mask m1 u = false).
Proof.
  intros nx ny nz Hx Hy Hz data nbs Hnbs vac Hvac mx Hmx grad Hgrad m H0 HM s1 s2 m1 m2 t1 t2 E1 F1 E2 F2.
  assert (Em : m = {| m_lab := m_lab m; m_mask := m_mask m |}) by now destruct m. rewrite Em in E1, E2.
  set (D := goal nx ny nz data nbs vac mx grad).
  pose proof (goal_spec nx ny nz Hx Hy Hz data nbs Hnbs vac Hvac mx Hmx grad Hgrad) as GS.
  destruct (pass_spec nx ny nz Hx Hy Hz data nbs Hnbs vac Hvac mx Hmx grad Hgrad (m_lab m) (m_mask m) D GS H0 HM s1 m1 t1 E1 F1) as [P1 R1].
  destruct (pass_spec nx ny nz Hx Hy Hz data nbs Hnbs vac Hvac mx Hmx grad Hgrad (m_lab m) (m_mask m) D GS H0 HM s2 m2 t2 E2 F2) as [P2 R2].
  split; [|split].
  - intros u G. destruct (P1 u G) as [A1 A2], (P2 u G) as [B1 B2]. destruct (m_mask m u) eqn:Mu.
    + destruct (A1 eq_refl), (B1 eq_refl). split; congruence.
    + destruct (A2 eq_refl) as [C1 C2], (B2 eq_refl) as [D1 D2].
      destruct (m_mask m1 u), (m_mask m2 u); try (split; [|reflexivity]).
      * destruct (C1 eq_refl) as (_ & _ & ->), (D1 eq_refl) as (_ & _ & ->). reflexivity.
      * exfalso. destruct (C1 eq_refl) as (K & T & _), (D2 eq_refl) as [_ Q]. now apply Q.
      * exfalso. destruct (D1 eq_refl) as (K & T & _), (C2 eq_refl) as [_ Q]. now apply Q.
      * destruct (C2 eq_refl) as [-> _], (D2 eq_refl) as [-> _]. reflexivity.
  - apply Bool.eq_iff_eq_true. rewrite R1, R2. reflexivity.
  - intros u G Mu. destruct (P1 u G) as [A1 _]. destruct (A1 Mu) as [A3 A4].
    assert (V : value_at vac u = false).
    { destruct (value_at vac u) eqn:V; [|reflexivity]. apply (H0 u G) in V. specialize (HM u G Mu). lia. }
    destruct (GS u G V) as [C T]. exists (D u). auto.
Qed.

(** 2x3x4 grid on which the refinement moves several voxels. *)
Definition nb6 : list (offset * Q) :=
  [((0, 0, 1), 1%Q); ((0, 0, -1), 1%Q); ((0, 1, 0), 1%Q); ((0, -1, 0), 1%Q); ((1, 0, 0), 1%Q); ((-1, 0, 0), 1%Q)].
Definition id3 : q3 * q3 * q3 := ((1, 0, 0), (0, 1, 0), (0, 0, 1))%Q.
Definition ng_values : list Z :=
  [4; 6; 28; 34; 11; 5; 34; 30; 25; 33; 13; 3; 30; 34; 29; 2; 25; 14; 30; 20; 12; 27; 39; 18].
Definition ng_data : arr3 Q := reshape 0%Q (map inject_Z ng_values) 3 4.
Definition ng_sorted (_ : list (Z * Z * Z)) : list nat := [4; 0; 1; 3; 2]%nat.
Definition round_robin : list nat := flat_map (fun _ => seq 0 24) (seq 0 60).
Definition one_by_one : list nat := flat_map (fun t => repeat t 60) (rev (seq 0 24)).
Definition ng_run scheds :=
  match near_run 2 3 4 ng_data nb6 id3 no_vac 0 never ng_sorted (seq 0 24) (seq 0 24) (seq 0 24) 60 scheds with
  | Done (Some lab, bs) => Some (map lab (voxels 2 3 4), map fst bs)
  | _ => None
  end.

(** Climbing into a vacuum voxel that is higher than its surroundings: 1x1x5. *)
Definition vh_data : arr3 Q := reshape 0%Q [1; 2; 3; 2; 0]%Q 1 5.
Definition vh_vac : arr3 bool := reshape false [false; false; true; false; false] 1 5.
Definition nbz : list (offset * Q) := [((0, 0, 1), 1%Q); ((0, 0, -1), 1%Q)].
Definition vh_mx : arr3 bool := reshape false (get_maxima 1 1 5 vh_data (map fst nbz) vh_vac false (seq 0 5)) 1 5.
Notation vh_grad := (near_gradients 1 1 5 vh_data nbz id3 vh_vac vh_mx).

Lemma vh_step m th : exists lab path, m_lab m (0, 0, 2) = 0 ->
  th = RStart (0, 0, 1) -> forall k, run_threads 1 1 5 vh_data nbz vh_grad vh_mx (repeat 0%nat (S (S k))) (m, [th]) =
    (m, [RClimb (0, 0, 1) lab (0, 0, 2) (0, 0, 0)%Q (repeat 2 k ++ path)]).
Proof.
  exists (Z.abs (m_lab m (0, 0, 1))), [1]. intros H0 -> k.
  unfold run_threads. cbn [repeat fold_left]. unfold rsched at 3. cbn [nth_error rstep upd].
  unfold rsched at 2. cbn [nth_error]. set (l := Z.abs (m_lab m (0, 0, 1))). clearbody l.
  cbn [rstep]. replace (rd vh_mx (0, 0, 1)) with false by (vm_compute; reflexivity).
  replace (fst (near_target 1 1 5 vh_grad (0, 0, 1) (0, 0, 0)%Q)) with (0, 0, 2) by (vm_compute; reflexivity).
  rewrite H0. replace (climb_step 1 1 5 vh_data nbz vh_grad (0 =? 0) (0, 0, 1) (0, 0, 0)%Q [flat 1 5 (0, 0, 1)]) with ((0, 0, 2), (0, 0, 0)%Q) by (vm_compute; reflexivity).
  cbn [upd]. change [flat 1 5 (0, 0, 1)] with [1].
  assert (K : forall k p, fold_left (rsched 1 1 5 vh_data nbz vh_grad vh_mx) (repeat 0%nat k) (m, [RClimb (0, 0, 1) l (0, 0, 2) (0, 0, 0)%Q p]) =
     (m, [RClimb (0, 0, 1) l (0, 0, 2) (0, 0, 0)%Q (repeat 2 k ++ p)])).
  { clear k. induction k as [|k IH]; intros p; [reflexivity|]. cbn [repeat fold_left]. unfold rsched at 2. cbn [nth_error rstep].
    replace (rd vh_mx (0, 0, 2)) with false by (vm_compute; reflexivity).
    unfold climb_step. replace (near_target 1 1 5 vh_grad (0, 0, 2) (0, 0, 0)%Q) with ((0, 0, 2), snd (near_target 1 1 5 vh_grad (0, 0, 2) (0, 0, 0)%Q)) by (vm_compute; reflexivity).
    cbn [fst]. rewrite H0. rewrite orb_true_r.
    replace (snd (get_best_neighbor 1 1 5 vh_data (0, 0, 2) nbz)) with (0, 0, 2) by (vm_compute; reflexivity).
    cbn [upd]. rewrite IH. change (flat 1 5 (0, 0, 2)) with 2. do 3 f_equal.
    replace (2 :: repeat 2 k ++ p) with ((2 :: repeat 2 k) ++ p) by reflexivity. rewrite (repeat_cons k 2). now rewrite <- app_assoc. }
  apply K.
Qed.

Lemma near_conserves : forall nx ny nz, 2 <= nx -> 2 <= ny -> 2 <= nz ->
  forall data nbs, (forall s d, In (s, d) nbs -> unit_offset s /\ (0 < d)%Q) ->
  forall dir2lat vac, (forall v w, in_grid nx ny nz v -> in_grid nx ny nz w ->
     value_at vac w = true -> value_at vac v = false -> (value_at data w < value_at data v)%Q) ->
  (forall v, in_grid nx ny nz v -> (low_start < value_at data v)%Q) ->
  forall order1 order2 order3, covers nx ny nz order1 -> covers nx ny nz order2 -> covers nx ny nz order3 ->
  forall same sorted, (forall l a b, (a < length l)%nat -> (b < length l)%nat -> exists r, same l a b = Done r) ->
  (forall l, Permutation (sorted l) (seq 0 (length l)) /\
    StronglySorted (fun a b => (value_at data (nth b l (0, 0, 0)%Z) <= value_at data (nth a l (0, 0, 0)%Z))%Q) (sorted l)) ->
  forall num_vacuum, (num_vacuum = 0 -> forall v, in_grid nx ny nz v -> value_at vac v = false) ->
  forall fuel scheds, (2 * Z.to_nat (nx * ny * nz) + 2 <= fuel)%nat ->
  forall lab bs charge vol, length charge = Z.to_nat (nx * ny * nz) ->
  near_run nx ny nz data nbs dir2lat vac num_vacuum same sorted order1 order2 order3 fuel scheds = Done (Some lab, bs) ->
  let r := get_basin_charges_and_volumes charge (map lab (voxels nx ny nz)) vol (length bs) in
    length (i_charges r) = length bs /\
    (qsum (i_charges r) + i_vcharge r == qsum charge / inject_Z (nx * ny * nz))%Q /\
    (qsum (i_volumes r) + i_vvolume r == vol)%Q.
Proof.
  intros nx ny nz Hx Hy Hz data nbs Hnbs dir2lat vac Hvac Hfl o1 o2 o3 H1 H2 H3 same sorted Hs Hso nv Hnv fuel scheds Hf lab bs charge vol LC E r.
  destruct (near_run_correct nx ny nz Hx Hy Hz data nbs Hnbs dir2lat vac Hvac Hfl o1 o2 o3 H1 H2 H3 same sorted Hs Hso nv Hnv fuel scheds Hf)
    as (bs' & L0 & E0 & fi & res & K1 & M & F1 & F2 & R & _).
  rewrite E in K1. injection K1 as <- <-. specialize (R lab eq_refl).
  assert (FB : forall v, in_grid nx ny nz v -> value_at vac v = false -> 0 <= fi v < Z.of_nat (length bs)).
  { intros v G V. destruct (F2 v G V) as (m & b & _ & _ & Hb & _ & ->). pose proof (rank_lt nx ny nz data nbs Hnbs vac Hvac Hfl same sorted Hs Hso nv Hnv _ b Hb) as RL. rewrite map_length in RL. lia. }
  assert (FL : Forall (fun l => l < Z.of_nat (length bs)) (map lab (voxels nx ny nz))).
  { apply Forall_forall. intros l Hl. apply in_map_iff in Hl as (v & <- & Hv). apply in_voxels in Hv. destruct (R v Hv) as [R1 R2].
    destruct (value_at vac v) eqn:V; [rewrite R1 by reflexivity; lia|]. destruct (R2 eq_refl) as [(_ & m & _ & (Gm & Vm & _) & ->)|(_ & ->)]; now apply FB. }
  pose proof (Z.mul_pos_pos nx ny ltac:(lia) ltac:(lia)). pose proof (Z.mul_pos_pos (nx * ny) nz ltac:(lia) ltac:(lia)).
  pose proof (voxels_length nx ny nz ltac:(lia) ltac:(lia) ltac:(lia)) as VL.
  split.
  - apply (integration_exact charge (map lab (voxels nx ny nz)) vol (length bs)); [rewrite map_length; congruence|exact FL].
  - replace (inject_Z (nx * ny * nz)) with (inject_Z (Z.of_nat (length charge))) by (rewrite LC; f_equal; lia).
    apply integration_conserves; [rewrite map_length; congruence|exact FL|]. intros K. rewrite K in LC. cbn in LC. lia.
Qed.
