(** Property theorem C14: the near-grid weight method. *)
From Verif Require Import Base GridModel GridProofs NeighModel NeighSpec RootsModel RootsSpec ChargeModel UnionModel UnionSpec
  LabelsModel LabelsSpec LabelsLemmas RunModel RunProofs NearModel NearSpec NearProofs NearRun NearLemmas WeightModel WeightSpec
  NearWeightModel NearWeightProofs.

(** All the charge and volume is handed out, provided (1) no edge voxel is a maximum,
    (2) ordering the edge voxels by charge orders them by reference value, and (3) the
    vacuum totals, which the method returns unscaled, are scaled like the others. *)
Theorem C14_conserves : forall nx ny nz, 2 <= nx -> 2 <= ny -> 2 <= nz ->
  forall data charge nbs facets, (forall s d, In (s, d) nbs -> unit_offset s /\ (0 < d)%Q) ->
  (forall s a, In (s, a) facets -> small_offset nx ny nz s /\ (0 < a)%Q) ->
  forall dir2lat vac, (forall v w, in_grid nx ny nz v -> in_grid nx ny nz w ->
     value_at vac w = true -> value_at vac v = false -> (value_at data w < value_at data v)%Q) ->
  (forall v, in_grid nx ny nz v -> (low_start < value_at data v)%Q) ->
  forall order1 order2 order3 order4, covers nx ny nz order1 -> covers nx ny nz order2 -> covers nx ny nz order3 -> covers nx ny nz order4 ->
  forall same sorted, (forall l a b, (a < length l)%nat -> (b < length l)%nat -> exists r, same l a b = Done r) ->
  (forall l, Permutation (sorted l) (seq 0 (length l)) /\
    StronglySorted (fun a b => (value_at data (nth b l (0, 0, 0)%Z) <= value_at data (nth a l (0, 0, 0)%Z))%Q) (sorted l)) ->
  forall sort, (forall l, Permutation (sort l) l /\ StronglySorted (fun a b => value_at charge a <= value_at charge b)%Q (sort l)) ->
  forall num_vacuum, (num_vacuum = 0 -> forall v, in_grid nx ny nz v -> value_at vac v = false) ->
  forall fuel scheds vol, (2 * Z.to_nat (nx * ny * nz) + 2 <= fuel)%nat ->
  forall lab r bs,
  near_weight_run nx ny nz data charge nbs facets dir2lat vac num_vacuum same sorted order1 order2 order3 order4 sort fuel scheds vol = Done (Some (lab, r), bs) ->
  (forall v, edge_voxel nx ny nz nbs vac lab v -> ~ locally_highest nx ny nz data (map fst nbs) v) ->
  (forall v w, edge_voxel nx ny nz nbs vac lab v -> edge_voxel nx ny nz nbs vac lab w ->
     (value_at data v < value_at data w)%Q -> (value_at charge v < value_at charge w)%Q) ->
  length (nw_charges r) = length bs /\
  (qsum (nw_charges r) + nw_vac_charge r / inject_Z (nx * ny * nz) ==
     qsum (map (value_at charge) (voxels nx ny nz)) / inject_Z (nx * ny * nz))%Q /\
  (qsum (nw_volumes r) + nw_vac_volume r * vol / inject_Z (nx * ny * nz) == vol)%Q.
Proof. exact near_weight_conserves. Qed.
Print Assumptions C14_conserves.

(** The shares: an edge voxel gives to every higher facet neighbour a part proportional to the
    difference of the values times the weight of the facet; without one all goes to one neighbour. *)
Lemma Forall2_maps {A B C} (R : A -> C -> Prop) (f : B -> C) l m : Forall2 (fun a b => R a (f b)) l m -> Forall2 R l (map f m).
Proof. induction 1; cbn; constructor; auto. Qed.
Lemma Forall2_weaken {A B} (R R' : A -> B -> Prop) l m : (forall a b, R a b -> R' a b) -> Forall2 R l m -> Forall2 R' l m.
Proof. intros H. induction 1; constructor; auto. Qed.
Theorem C14_shares : forall nx ny nz data nbs facets v,
  let higher := fun sa : offset * Q => Qltb (value_at data v) (value_at data (step_to nx ny nz v (fst sa))) in
  let flow := fun sa : offset * Q => ((value_at data (step_to nx ny nz v (fst sa)) - value_at data v) * snd sa)%Q in
  let total := qsum (map flow (filter higher facets)) in
  (~ (total == 0)%Q ->
   Forall2 (fun sa nf => fst nf = step_to nx ny nz v (fst sa) /\ (snd nf == flow sa / total)%Q)
     (filter higher facets) (edge_row nx ny nz data nbs facets v)) /\
  ((total == 0)%Q -> edge_row nx ny nz data nbs facets v = [(snd (get_best_neighbor nx ny nz data v nbs), 1%Q)]).
Proof.
  intros nx ny nz data nbs facets v higher flow total. unfold edge_row. change @rd with @value_at.
  set (up := flat_map _ facets).
  assert (F : Forall2 (fun sa nf => fst nf = step_to nx ny nz v (fst sa) /\ snd nf = flow sa) (filter higher facets) up).
  { unfold up. clear total up. induction facets as [|[s a] t IH]; [constructor|]. cbn [flat_map filter fst snd].
    unfold higher at 1. cbn [fst]. unfold Qltb. destruct (Qle_bool (value_at data (step_to nx ny nz v s)) (value_at data v)); cbn [negb app].
    - exact IH.
    - constructor; [now split|exact IH]. }
  assert (T : qsum (map snd up) = total).
  { unfold total. clear total. induction F as [|sa nf l m (A & B) F IH]; [reflexivity|]. cbn [map]. rewrite B.
    change (flow sa + qsum (map snd m) = flow sa + qsum (map flow l))%Q. now rewrite IH. }
  cbv zeta. rewrite T. split.
  - intro N. destruct (Qeq_bool total 0) eqn:E; [apply Qeq_bool_iff in E; contradiction|].
    apply Forall2_maps. cbn [fst snd]. eapply Forall2_weaken; [|exact F]. cbn beta. intros sa nf (A & B). split; [exact A|].
    rewrite B. reflexivity.
  - intro Z. apply Qeq_bool_iff in Z. now rewrite Z.
Qed.
Print Assumptions C14_shares.

(** Concrete runs on a 2x2x10 grid depending on [z] only, slightly raised at x = y = 0. *)
Definition raise (i j : Z) : Q := if (i =? 0) && (j =? 0) then 3 else if i =? 0 then 2 else if j =? 0 then 1 else 0.
Definition col (l : list Q) : arr3 Q := fun i j k => (100 * nth (Z.to_nat k) l 0 + raise i j)%Q.
Definition sort_by (key : Z * Z * Z -> Q) (l : list (Z * Z * Z)) : list (Z * Z * Z) :=
  map (fun i => nth i l (0, 0, 0)) (key_sort (fun i => key (nth i l (0, 0, 0))) (seq 0 (length l))).
Definition down (data : arr3 Q) (l : list (Z * Z * Z)) : list nat := key_sort (fun i => - value_at data (nth i l (0, 0, 0)%Z))%Q (seq 0 (length l)).
Definition rr40 : list nat := flat_map (fun _ => seq 0 40) (seq 0 60).
Definition nw_run (ref chg : arr3 Q) (vac : arr3 bool) (nv : Z) :=
  match near_weight_run 2 2 10 ref chg nb6 nb6 id3 vac nv never (down ref) (seq 0 40) (seq 0 40) (seq 0 40) (seq 0 40)
          (sort_by (value_at chg)) 100 (repeat rr40 4) 20 with
  | Done (Some (lab, r), bs) => Some (map lab (voxels 2 2 10), map fst bs, (map Qred (nw_charges r), map Qred (nw_volumes r)), (Qred (nw_vac_charge r), Qred (nw_vac_volume r)))
  | _ => None end.
Definition nw_ref : arr3 Q := col [1; 4; 9; 4; 3; 2; 5; 9; 3; 2]%Q.
Example C14_ex : nw_run nw_ref nw_ref no_vac 0 =
  Some (repeat 0 5 ++ repeat 1 5 ++ repeat 0 5 ++ repeat 1 5 ++ repeat 0 5 ++ repeat 1 5 ++ repeat 0 5 ++ repeat 1 5,
        [(0, 0, 2); (0, 0, 7)], ([853 # 4; 833 # 4]%Q, [10; 10]%Q), (0, 0)%Q) /\
  (qsum (map (value_at nw_ref) (voxels 2 2 10)) / 40 == (853 # 4) + (833 # 4))%Q.
Proof. split; vm_compute; reflexivity. Qed.

(** Finding: the vacuum totals come back as plain sums over voxels, on another scale than
    the basin totals; charge and volume do not add up. *)
Definition nw_vac : arr3 bool := fun _ _ k => k =? 0.
Theorem C125_vacuum_scale_refuted : exists labs reps charges volumes vc vv,
  nw_run nw_ref nw_ref nw_vac 4 = Some (labs, reps, (charges, volumes), (vc, vv)) /\
  ~ (qsum charges + vc == qsum (map (value_at nw_ref) (voxels 2 2 10)) / 40)%Q /\
  ~ (qsum volumes + vv == 20)%Q /\ (qsum volumes + vv * 20 / 40 == 20)%Q.
Proof. do 6 eexists. split; [vm_compute; reflexivity|]. split; [|split]; vm_compute; congruence. Qed.
Print Assumptions C125_vacuum_scale_refuted.

(** Finding: the edge voxels are visited in order of charge, but the flow follows the
    reference; when the two orders disagree charge is sent to a voxel already visited and lost. *)
Definition nw_chg : arr3 Q := col [9; 8; 7; 6; 5; 4; 3; 2; 1; 1]%Q.
Theorem C126_order_refuted : exists labs reps charges volumes vc vv,
  nw_run nw_ref nw_chg no_vac 0 = Some (labs, reps, (charges, volumes), (vc, vv)) /\
  (qsum charges + vc < qsum (map (value_at nw_chg) (voxels 2 2 10)) / 40)%Q /\ (qsum volumes < 20)%Q.
Proof. do 6 eexists. split; [vm_compute; reflexivity|]. split; vm_compute; reflexivity. Qed.
Print Assumptions C126_order_refuted.

(** Finding: a maximum that touches another basin flows to itself and its charge is lost. *)
Definition nw_touch : arr3 Q := col [0; 1; 2; 3; 9; 3; 8; 3; 2; 1]%Q.
Theorem C127_edge_maximum_refuted : exists labs reps charges volumes vc vv,
  nw_run nw_touch nw_touch no_vac 0 = Some (labs, reps, (charges, volumes), (vc, vv)) /\
  (qsum charges + vc < qsum (map (value_at nw_touch) (voxels 2 2 10)) / 40)%Q /\ (qsum volumes < 20)%Q.
Proof. do 6 eexists. split; [vm_compute; reflexivity|]. split; vm_compute; reflexivity. Qed.
Print Assumptions C127_edge_maximum_refuted.
