(** Property theorems C11, C12, C54, C55 (and C08 for the weight method). *)
From Verif Require Import Base GridModel NeighModel NeighSpec RootsModel RootsSpec UnionModel UnionSpec
  ChargeModel LabelsModel LabelsSpec WeightModel WeightSpec WeightProofs WeightRun LabelsLemmas WeightLemmas.

(** ** C11 *)
Theorem C11_conserves : forall nx ny nz data charge nbs facets vac order1 same sorted fuel,
  weight_setting nx ny nz data nbs facets vac order1 same sorted fuel ->
  forall vol out, weight_run nx ny nz data charge nbs facets vac same sorted order1 fuel vol = Done out ->
  (qsum (wo_charges out) + wo_vac_charge out
     == qsum (map (fun v => value_at charge v) (voxels nx ny nz)) / inject_Z (nx * ny * nz))%Q /\
  (qsum (wo_volumes out) + wo_vac_volume out == vol)%Q.
Proof. intros until 1. exact (run_conserved H). Qed.
Print Assumptions C11_conserves.

Example C11_ex : exists out, rv_run = Done out /\ wo_labels out = [0; 0; -1; 1] /\
  Forall2 Qeq (wo_charges out) [77 # 28; 70 # 28]%Q /\ (wo_vac_charge out == 7 # 4)%Q.
Proof. exact rv_done. Qed.
Example C11_setting_ex : weight_setting 1 1 4 rg_data ring_nbs ring_nbs no_vac (seq 0 4) never rg_sorted 20.
Proof. exact rg_setting. Qed.

(** ** C12: the label of a voxel, and everything the shares satisfy in any case. *)
Theorem C12_labels : forall nx ny nz data charge nbs facets vac order1 same sorted fuel,
  weight_setting nx ny nz data nbs facets vac order1 same sorted fuel ->
  forall vol out, weight_run nx ny nz data charge nbs facets vac same sorted order1 fuel vol = Done out ->
  let maxima := argwhere nx ny nz (get_maxima nx ny nz data (map fst nbs) vac false order1) in
  let reps := map fst (wo_reps out) in
  exists L0 reps0 E share,
    merged nx ny nz data (map fst nbs) vac maxima (same maxima) (sorted maxima) L0 reps0 E /\ Permutation reps0 reps /\
    length (wo_labels out) = Z.to_nat (nx * ny * nz) /\
    (forall v, in_grid nx ny nz v -> value_at vac v = true -> nth_error (wo_labels out) (voxel_number ny nz v) = Some (-1)) /\
    weight_result (value_at data) (fun v => value_at charge v / inject_Z (nx * ny * nz))%Q (vol / inject_Z (nx * ny * nz))%Q
      (is_maximum nx ny nz data (map fst nbs) vac) (periodic_neighbours nx ny nz facets) (steepest nx ny nz data nbs)
      (outside_vacuum nx ny nz vac) (length reps) (group_of ny nz reps E) share
      (fun v => nth_error (wo_labels out) (voxel_number ny nz v)) (wo_charges out) (wo_volumes out).
Proof. intros until 1. exact (run_labels H). Qed.
Print Assumptions C12_labels.

Example C12_ex : exists out, rg_run = Done out /\ map fst (wo_reps out) = [(0, 0, 1); (0, 0, 3)] /\
  wo_labels out = [1; 0; 0; 1] /\ Forall2 Qeq (wo_charges out) [98 # 36; 154 # 36]%Q.
Proof. exact rg_done. Qed.

(** ** C08 for the weight method: representatives are aligned with the labels. *)
Theorem C08_weight_aligned : forall nx ny nz data charge nbs facets vac order1 same sorted fuel,
  weight_setting nx ny nz data nbs facets vac order1 same sorted fuel ->
  forall vol out, weight_run nx ny nz data charge nbs facets vac same sorted order1 fuel vol = Done out ->
  let reps := map fst (wo_reps out) in
  StronglySorted (fun a b => (voxel_number ny nz a < voxel_number ny nz b)%nat) reps /\
  forall i b, nth_error reps i = Some b -> nth_error (wo_labels out) (voxel_number ny nz b) = Some (Z.of_nat i).
Proof. intros until 1. exact (run_aligned H). Qed.
Print Assumptions C08_weight_aligned.

(** ** C54: the shares follow the flux rule, provided the interior test compares against
    the first neighbour (the stale label [z] never matches) and nothing is truncated. *)
Theorem C54_flux_rule : forall nx ny nz data charge nbs facets vac order1 same sorted fuel,
  weight_setting nx ny nz data nbs facets vac order1 same sorted fuel ->
  forall vol out, weight_run nx ny nz data charge nbs facets vac same sorted order1 fuel vol = Done out ->
  let maxima := argwhere nx ny nz (get_maxima nx ny nz data (map fst nbs) vac false order1) in
  let reps := map fst (wo_reps out) in
  let ref := value_at data in
  let top := is_maximum nx ny nz data (map fst nbs) vac in
  let vor := periodic_neighbours nx ny nz facets in
  let best := steepest nx ny nz data nbs in
  let cells := outside_vacuum nx ny nz vac in
  exists L0 reps0 E share z,
    merged nx ny nz data (map fst nbs) vac maxima (same maxima) (sorted maxima) L0 reps0 E /\ Permutation reps0 reps /\
    weight_result ref (fun v => value_at charge v / inject_Z (nx * ny * nz))%Q (vol / inject_Z (nx * ny * nz))%Q
      top vor best cells (length reps) (group_of ny nz reps E) share
      (fun v => nth_error (wo_labels out) (voxel_number ny nz v)) (wo_charges out) (wo_volumes out) /\
    ((forall v n c, In v cells -> ~ top v -> mixed ref vor best share v -> uphill ref vor best v n ->
        ((share n c == 1)%Q -> Z.of_nat c <> z) /\ z <> - Z.of_nat (voxel_number ny nz n) - 1) ->
     nothing_dropped cells (length reps) share ->
     ideal_shares ref top vor best cells (group_of ny nz reps E) share).
Proof. intros until 1. exact (run_ideal H). Qed.
Print Assumptions C54_flux_rule.

(** The flux rule determines the shares. *)
Theorem C54_unique : forall nx ny nz data nbs facets vac order1 same sorted fuel,
  weight_setting nx ny nz data nbs facets vac order1 same sorted fuel ->
  let top := is_maximum nx ny nz data (map fst nbs) vac in
  let cells := outside_vacuum nx ny nz vac in
  let ideal := ideal_shares (value_at data) top (periodic_neighbours nx ny nz facets) (steepest nx ny nz data nbs) cells in
  forall basin s1 s2, (forall v, top v -> exists c, basin v c) -> ideal basin s1 -> ideal basin s2 ->
  forall v b, In v cells -> (s1 v b == s2 v b)%Q.
Proof. intros until 1. exact (shares_unique H). Qed.
Print Assumptions C54_unique.

(** Finding: in general the shares do not follow the flux rule.  The search for a known
    label compares the variable [label] left over from an earlier loop instead of
    [neigh_label], so that the flux to the wrong basin is counted. *)
Theorem C142_stale_label_refuted : exists out, rg_run = Done out /\
  forall share, rg_ideal rg_data no_vac (map fst (wo_reps out)) share ->
  ~ (nth 0 (wo_charges out) 0 == qsum (map (fun v => value_at rg_charge v / 4 * share v 0%nat) (outside_vacuum 1 1 4 no_vac)))%Q.
Proof. exact rg_wrong. Qed.
Print Assumptions C142_stale_label_refuted.

(** ** C55 *)
Theorem C55_completes : forall nx ny nz data charge nbs facets vac order1 same sorted fuel,
  weight_setting nx ny nz data nbs facets vac order1 same sorted fuel ->
  (forall v, in_grid nx ny nz v -> value_at vac v = false -> (0 < value_at charge v)%Q) ->
  forall vol, exists out, weight_run nx ny nz data charge nbs facets vac same sorted order1 fuel vol = Done out.
Proof. intros nx ny nz data charge nbs facets vac order1 same sorted fuel WS P vol. exact (run_total WS vol P). Qed.
Print Assumptions C55_completes.

(** Findings: a tie between basins of zero charge divides by zero; a vacuum voxel above
    a voxel outside the vacuum is looked up among edge voxels it does not belong to. *)
Theorem C143_zero_charge_refuted : exists data charge,
  weight_run 1 1 4 data charge ring_nbs ring_nbs no_vac never rg_sorted (seq 0 4) 20 4 = Raised /\
  forall i j k, (0 <= charge i j k)%Q.
Proof. exists zr_data, zr_charge. split; [exact zr_raised|]. intros. unfold zr_charge. lra. Qed.
Print Assumptions C143_zero_charge_refuted.
Theorem C144_high_vacuum_refuted : exists data vac,
  weight_run 1 1 5 data rg_charge ring_nbs ring_nbs vac never rg_sorted (seq 0 5) 20 4 = Raised /\
  forall i j k, (0 < rg_charge i j k)%Q.
Proof. exists hv_data, hv_vac. split; [exact hv_raised|]. intros. unfold rg_charge. lra. Qed.
Print Assumptions C144_high_vacuum_refuted.
