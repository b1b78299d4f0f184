(** The near-grid weight method: edge voxels of the near-grid basins are shared out by flux. *)
From Verif Require Import Base GridModel NeighModel RootsModel ChargeModel UnionModel LabelsModel NearModel.

(** [a[i] += x], numpy indexing (negative indices count from the end; out of range is
    undefined behaviour in numba and leaves [a] alone here). *)
Definition add_np (a : list Q) (i : Z) (x : Q) : list Q :=
  match np_idx (length a) i with Some k => add_at a k x | None => a end.

Section NW.
Variables nx ny nz : Z.
Variable data charge : arr3 Q.
Variable nbs : list (offset * Q).
(** [zip(neighbor_transforms, neighbor_alpha)]. *)
Variable facets : list (offset * Q).
Variable lab : Z * Z * Z -> Z.

(** [get_interior_basin_charges_and_volumes], neargrid_weight_numba.py lines 11-41. *)
Definition interior_step (edge : Z * Z * Z -> bool) (st : integ) (v : Z * Z * Z) : integ :=
  if edge v then st else integ_step st (rd charge v, lab v).
Definition interior (edge : Z * Z * Z -> bool) (K : nat) : integ :=
  fold_left (interior_step edge) (voxels nx ny nz)
    {| i_charges := repeat 0%Q K; i_volumes := repeat 0%Q K; i_vcharge := 0%Q; i_vvolume := 0%Q |}.

(** Lines 73-127: the neighbours an edge voxel flows to with their fractions. *)
Definition edge_row (v : Z * Z * Z) : list ((Z * Z * Z) * Q) :=
  let up := flat_map (fun sa : offset * Q =>
              let n := step_to nx ny nz v (fst sa) in
              if Qle_bool (rd data n) (rd data v) then [] else [(n, ((rd data n - rd data v) * snd sa)%Q)]) facets in
  let total := qsum (map snd up) in
  if Qeq_bool total 0 then [(snd (get_best_neighbor nx ny nz data v nbs), 1%Q)]
  else map (fun nf => (fst nf, (snd nf / total)%Q)) up.

(** [flat_charge] and [flat_volume] as maps from voxels. *)
Record estate := { e_fc : Z * Z * Z -> Q; e_fv : Z * Z * Z -> Q; e_charges : list Q; e_volumes : list Q }.

(** Lines 143-159. *)
Definition give (c vol : Q) (st : estate) (nf : (Z * Z * Z) * Q) : estate :=
  let '(n, f) := nf in
  if Qeq_bool (e_fc st n) 0
  then {| e_fc := e_fc st; e_fv := e_fv st; e_charges := add_np (e_charges st) (lab n) (c * f)%Q;
          e_volumes := add_np (e_volumes st) (lab n) (vol * f)%Q |}
  else {| e_fc := put (e_fc st) n (e_fc st n + c * f)%Q; e_fv := put (e_fv st) n (e_fv st n + vol * f)%Q;
          e_charges := e_charges st; e_volumes := e_volumes st |}.
(** Lines 129-142. *)
Definition edge_step (st : estate) (v : Z * Z * Z) : estate :=
  fold_left (give (e_fc st v) (e_fv st v)) (edge_row v) st.

(** [get_edge_charges_volumes], lines 44-161; [order] lists the edge voxels in the order
    of [sorted_indices]. *)
Definition get_edge_charges_volumes (edge : Z * Z * Z -> bool) (order : list (Z * Z * Z)) (charges volumes : list Q) : estate :=
  fold_left edge_step order
    {| e_fc := fun v => if edge v then rd charge v else 0%Q; e_fv := fun _ => 1%Q; e_charges := charges; e_volumes := volumes |}.

Record nw_out := { nw_charges : list Q; nw_volumes : list Q; nw_vac_charge : Q; nw_vac_volume : Q }.

(** neargrid_weight_method.py lines 136-196; [order4] is the schedule of the edge scan,
    [sort] the argsort of the edges by charge. *)
Definition near_weight_finish (vac : arr3 bool) (order4 : list nat) (sort : list (Z * Z * Z) -> list (Z * Z * Z)) (K : nat) (vol : Q) : nw_out :=
  let mask := get_edges nx ny nz (fun i j k => lab (i, j, k)) (map fst nbs) vac order4 in
  let edge := fun v => nth (Z.to_nat (flat ny nz v)) mask false in
  let r := interior edge K in
  let e := get_edge_charges_volumes edge (sort (argwhere nx ny nz mask)) (i_charges r) (i_volumes r) in
  let n := inject_Z (nx * ny * nz) in
  {| nw_charges := map (fun c => c / n)%Q (e_charges e); nw_volumes := map (fun v => v * vol / n)%Q (e_volumes e);
     nw_vac_charge := i_vcharge r; nw_vac_volume := i_vvolume r |}.
End NW.

(** [MethodBase.run] with the near-grid weight method. *)
Definition near_weight_run nx ny nz data charge nbs facets dir2lat vac num_vacuum same sorted order1 order2 order3 order4 sort fuel scheds vol :=
  obind (near_run nx ny nz data nbs dir2lat vac num_vacuum same sorted order1 order2 order3 fuel scheds)
    (fun '(res, bs) => Done (match res with
       | Some lab => Some (lab, near_weight_finish nx ny nz data charge nbs facets lab vac order4 sort (length bs) vol)
       | None => None end, bs)).
