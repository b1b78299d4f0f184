(** The weight method, bader/methods/weight/weight_numba.py lines 11-387 and
    weight_method.py.  Floats are exact rationals; [uint8]/[uint32] counters do not
    overflow; the two [prange] loops (lines 45-97, 190-266) write only the row of
    their own index and read arrays nobody writes, so they are maps. *)
From Verif Require Import Base GridModel NeighModel RootsModel UnionModel LabelsModel ChargeModel.

Definition w_tol : Q := 1 # 1000000.
Definition w_cut : Q := Qmake 1 (10 ^ 30).

(** [np.searchsorted(l, x)] on a sorted list: the number of smaller entries. *)
Definition searchsorted (l : list nat) (x : nat) : nat := length (filter (fun y => Nat.ltb y x) l).

Fixpoint nat_insert (x : nat) (l : list nat) : list nat :=
  match l with [] => [x] | y :: t => if Nat.leb x y then x :: l else y :: nat_insert x t end.
Definition nat_sort (l : list nat) : list nat := fold_right nat_insert [] l.

(** Stable insertion sort of (label, weight) pairs by weight. *)
Fixpoint wt_insert (x : nat * Q) (l : list (nat * Q)) : list (nat * Q) :=
  match l with [] => [x] | y :: t => if Qle_bool (snd x) (snd y) then x :: l else y :: wt_insert x t end.
Definition wt_sort (l : list (nat * Q)) : list (nat * Q) := fold_right wt_insert [] l.

Section Core.
(** Voxels are flat indices.  [ref], [chg]: reference and charge values; [mask]: the
    maxima mask; [vor v]: (wrapped neighbour, alpha) for every Voronoi transform;
    [best v]: flat index of [get_best_neighbor]. *)
Variables ref chg : nat -> Q.
Variable mask : nat -> bool.
Variable vor : nat -> list (nat * Q).
Variable best : nat -> nat.

(** Lines 66-80 (205-213): neighbours with a strictly higher value. *)
Definition higher (v : nat) : list (nat * Q) :=
  filter (fun na => negb (Qle_bool (ref (fst na)) (ref v))) (vor v).

(** Lines 45-97: the row [neigh_array[., :neigh_num]]; empty for maxima. *)
Definition neighs (v : nat) : list nat :=
  if mask v then []
  else match map fst (higher v) with [] => [best v] | l => l end.

Definition lab_at (lab : list Z) (v : nat) : Z := nth v lab (-1).

(** Lines 112-129: returns ([best_label], [label]). *)
Fixpoint interior_scan (lab : list Z) (b last : Z) (ns : list nat) : Z * Z :=
  match ns with
  | [] => (b, last)
  | n :: t =>
      let l := lab_at lab n in
      if l =? -1 then (-1, l)
      else if negb (l =? b) && negb (b =? -1) then (-1, l)
      else interior_scan lab l l t
  end.

(** [w_stale] is the Python variable [label] after the statement executed last. *)
Record wst := { w_lab : list Z; w_chg : list Q; w_vol : list Q; w_edges : list nat;
                w_added : list Z; w_stale : Z }.

(** Body of the loop lines 107-170. *)
Definition interior_step (maxidx : list nat) (st : wst) (v : nat) : wst :=
  let '{| w_lab := lab; w_chg := c; w_vol := vol; w_edges := es; w_added := ad; w_stale := sl |} := st in
  match neighs v with
  | [] =>
      if existsb (Z.eqb (Z.of_nat v)) ad then st
      else
        let label := lab_at lab v in
        let root := Z.to_nat label in
        let '(lab1, c1, vol1, ad1, mi) :=
          if existsb (Z.eqb label) ad then (lab, c, vol, ad, lab_at lab root)
          else
            let mi := searchsorted maxidx root in
            (upd lab root (Z.of_nat mi), add_at c mi (chg root), add_at vol mi 1,
             ad ++ [label], Z.of_nat mi) in
        if Z.of_nat v =? label
        then {| w_lab := lab1; w_chg := c1; w_vol := vol1; w_edges := es; w_added := ad1; w_stale := label |}
        else {| w_lab := upd lab1 v mi; w_chg := add_at c1 (Z.to_nat mi) (chg v);
                w_vol := add_at vol1 (Z.to_nat mi) 1; w_edges := es; w_added := ad1; w_stale := label |}
  | ns =>
      let '(b, l) := interior_scan lab (-1) sl ns in
      if negb (b =? -1)
      then {| w_lab := upd lab v l; w_chg := add_at c (Z.to_nat l) (chg v);
              w_vol := add_at vol (Z.to_nat l) 1; w_edges := es; w_added := ad; w_stale := l |}
      else {| w_lab := lab; w_chg := c; w_vol := vol; w_edges := es ++ [v]; w_added := ad; w_stale := l |}
  end.

(** Lines 35-36, 100-170. *)
Definition interior_phase (maxidx order : list nat) (lab0 : list Z) : wst :=
  fold_left (interior_step maxidx) order
    {| w_lab := lab0; w_chg := repeat 0%Q (length maxidx); w_vol := repeat 0%Q (length maxidx);
       w_edges := []; w_added := []; w_stale := 0 |}.

(** Lines 223-237: the entry whose label equals the variable [label] (not
    [neigh_label]) receives the flux; otherwise a new entry is appended. *)
Fixpoint add_flux (stale : Z) (row : list (Q * Z)) (flux : Q) (nl : Z) : list (Q * Z) :=
  match row with
  | [] => [(flux, nl)]
  | (f, l) :: t => if stale =? l then ((f + flux)%Q, l) :: t else (f, l) :: add_flux stale t flux nl
  end.

(** Lines 205-237, one Voronoi neighbour. *)
Definition flux_step (stale : Z) (lab : list Z) (v : nat) (st : Q * list (Q * Z)) (na : nat * Q)
    : Q * list (Q * Z) :=
  let '(total, row) := st in
  let '(n, alpha) := na in
  if Qle_bool (ref n) (ref v) then st
  else
    let flux := ((ref n - ref v) * alpha)%Q in
    let nl := lab_at lab n in
    ((total + flux)%Q,
     if nl =? -1 then row ++ [(flux, - Z.of_nat n - 1)] else add_flux stale row flux nl).

(** Lines 190-266: the row of an edge voxel: (normalised flux, basin label or coded
    edge neighbour). *)
Definition flux_row (stale : Z) (lab : list Z) (v : nat) : list (Q * Z) :=
  let '(total, row) := fold_left (flux_step stale lab v) (vor v) (0%Q, []) in
  match row with
  | [] =>
      let nl := lab_at lab (best v) in
      [((1 / 1)%Q, if 0 <=? nl then nl else - Z.of_nat (best v) - 1)]
  | _ => map (fun fl : Q * Z => ((fst fl / total)%Q, snd fl)) row
  end.

(** [idx_to_edge]: the number of an edge voxel; other entries are uninitialised. *)
Fixpoint index_of (n : nat) (l : list nat) : option nat :=
  match l with
  | [] => None
  | x :: t => if Nat.eqb x n then Some 0%nat else option_map S (index_of n t)
  end.

(** Lines 286-313: the list of (label, amount) added to [scratch_weights]. *)
Fixpoint contribs (edges : list nat) (all : list (list (nat * Q))) (row : list (Q * Z))
    : outcome (list (nat * Q)) :=
  match row with
  | [] => Done []
  | (flux, label) :: t =>
      obind (if 0 <=? label then Done [(Z.to_nat label, flux)]
             else match index_of (Z.to_nat (- label - 1)) edges with
                  | None => Raised
                  | Some e => match nth_error all e with
                              | None => Raised
                              | Some l => Done (map (fun lw : nat * Q => (fst lw, (flux * snd lw)%Q)) l)
                              end
                  end) (fun h =>
      obind (contribs edges all t) (fun r => Done (h ++ r)))
  end.

(** Lines 291-294, 307-311: one addition to the scratch arrays. *)
Definition scratch_step (st : list Q * list bool * list nat) (lx : nat * Q)
    : list Q * list bool * list nat :=
  let '(sc, wm, cur) := st in
  let '(l, x) := lx in
  (add_at sc l x, if nth l wm false then wm else upd wm l true,
   if nth l wm false then cur else cur ++ [l]).

(** Lines 318-346.  State: scratch_weights, weight_mask, charges, volumes,
    best_label, best_weight, total_weight, tied_labels, zip(reduced_labels,
    reduced_weights). *)
Record est := { e_sc : list Q; e_wm : list bool; e_c : list Q; e_v : list Q;
                e_bl : Z; e_bw : Q; e_tot : Q; e_tied : bool; e_red : list (nat * Q) }.

Definition assign_step (charge : Q) (st : est) (l : nat) : est :=
  let w := nth l (e_sc st) 0%Q in
  let sc := upd (e_sc st) l 0%Q in
  let wm := upd (e_wm st) l false in
  let c := add_at (e_c st) l (charge * w)%Q in
  let vol := add_at (e_v st) l w in
  if Qltb w w_cut
  then {| e_sc := sc; e_wm := wm; e_c := c; e_v := vol; e_bl := e_bl st; e_bw := e_bw st;
          e_tot := e_tot st; e_tied := e_tied st; e_red := e_red st |}
  else
    let up := Qltb (e_bw st + w_tol) w in
    {| e_sc := sc; e_wm := wm; e_c := c; e_v := vol;
       e_bl := if up then Z.of_nat l else e_bl st;
       e_bw := if up then w else e_bw st;
       e_tot := (e_tot st + w)%Q;
       e_tied := if up then false else if Qltb (e_bw st - w_tol) w then true else e_tied st;
       e_red := e_red st ++ [(l, w)] |}.

(** Lines 348-357: keep the 26 largest weights ([np.argsort] orders equal weights
    arbitrarily; here stably), renormalise. *)
Definition cap (tot : Q) (red : list (nat * Q)) : list (nat * Q) :=
  let '(tot', red') :=
    if Nat.ltb 26 (length red)
    then let top := skipn (length red - 26) (wt_sort red) in (qsum (map snd top), top)
    else (tot, red) in
  map (fun lw : nat * Q => (fst lw, (snd lw / tot')%Q)) red'.

Definition qabs (q : Q) : Q := if Qltb q 0 then (- q)%Q else q.

(** Lines 372-384: tie breaking.  Division by a zero charge raises
    ZeroDivisionError (numba's default error model). *)
Fixpoint tie_loop (charge bw : Q) (approx c : list Q) (l : list (nat * Q)) (bi : Q) (bl : Z) : outcome Z :=
  match l with
  | [] => Done bl
  | (b, w) :: t =>
      if Qltb w (bw - w_tol) then tie_loop charge bw approx c t bi bl
      else if Qeq_bool (nth b c 0%Q) 0 then Raised
      else
        let diff := (nth b approx 0 - nth b c 0)%Q in
        let imp := ((qabs diff - qabs (diff + charge)) / nth b c 0)%Q in
        if Qltb (bi + w_tol) imp then tie_loop charge bw approx c t imp (Z.of_nat b)
        else tie_loop charge bw approx c t bi bl
  end.

Record pst := { p_lab : list Z; p_c : list Q; p_v : list Q; p_ap : list Q; p_sc : list Q;
                p_wm : list bool; p_all : list (list (nat * Q)) }.

(** One iteration of the loop lines 278-386. *)
Definition edge_step (edges : list nat) (st : pst) (v : nat) (row : list (Q * Z)) : outcome pst :=
  let charge := chg v in
  obind (contribs edges (p_all st) row) (fun cs =>
  let '(sc, wm, cur) := fold_left scratch_step cs (p_sc st, p_wm st, []) in
  let e := fold_left (assign_step charge) (nat_sort cur)
     {| e_sc := sc; e_wm := wm; e_c := p_c st; e_v := p_v st; e_bl := -1; e_bw := 0%Q;
        e_tot := 0%Q; e_tied := false; e_red := [] |} in
  let red := cap (e_tot e) (e_red e) in
  obind (if negb (e_tied e) then Done (e_bl e)
         else tie_loop charge (e_bw e) (p_ap st) (e_c e) red (-1)%Q (e_bl e)) (fun bl =>
  match np_idx (length (p_ap st)) bl with
  | None => Raised
  | Some b => Done {| p_lab := upd (p_lab st) v bl; p_c := e_c e; p_v := e_v e;
                      p_ap := add_at (p_ap st) b charge; p_sc := e_sc e; p_wm := e_wm e;
                      p_all := p_all st ++ [red] |}
  end)).

Fixpoint edge_phase (edges : list nat) (rows : list (nat * list (Q * Z))) (st : pst) : outcome pst :=
  match rows with
  | [] => Done st
  | (v, row) :: t => obind (edge_step edges st v row) (edge_phase edges t)
  end.

(** [get_weight_assignments], lines 11-387. *)
Definition weight_assign (maxidx order : list nat) (lab0 : list Z) : outcome (list Z * list Q * list Q) :=
  let w := interior_phase maxidx order lab0 in
  let rows := map (fun v => (v, flux_row (w_stale w) (w_lab w) v)) (w_edges w) in
  obind (edge_phase (w_edges w) rows
    {| p_lab := w_lab w; p_c := w_chg w; p_v := w_vol w; p_ap := w_chg w;
       p_sc := repeat 0%Q (length maxidx); p_wm := repeat false (length maxidx); p_all := [] |})
   (fun p => Done (p_lab p, p_c p, p_v p)).
End Core.

(** Stable insertion sort of indices by a key ([np.argsort(kind="stable")]). *)
Fixpoint key_insert (key : nat -> Q) (x : nat) (l : list nat) : list nat :=
  match l with [] => [x] | y :: t => if Qle_bool (key x) (key y) then x :: l else y :: key_insert key x t end.
Definition key_sort (key : nat -> Q) (l : list nat) : list nat := fold_right (key_insert key) [] l.

Section Run.
Variables nx ny nz : Z.
Variable data charge : arr3 Q.
Variable nbs : list (offset * Q).
(** [zip(neighbor_transforms, facet_areas / neighbor_dists)]. *)
Variable facets : list (offset * Q).
Variable vac : arr3 bool.

Definition at_flat {A} (a : arr3 A) (v : nat) : A := rd a (unflat ny nz (Z.of_nat v)).
Definition flat_nat (w : Z * Z * Z) : nat := Z.to_nat (flat ny nz w).
Definition vor_of (v : nat) : list (nat * Q) :=
  map (fun sa : offset * Q => (flat_nat (step_to nx ny nz (unflat ny nz (Z.of_nat v)) (fst sa)), snd sa)) facets.
Definition best_of (v : nat) : nat :=
  flat_nat (snd (get_best_neighbor nx ny nz data (unflat ny nz (Z.of_nat v)) nbs)).

(** weight_method.py lines 45-50: non-vacuum voxels from high to low. *)
Definition voxel_order : list nat :=
  rev (key_sort (at_flat data)
         (filter (fun v => negb (at_flat vac v)) (seq 0 (Z.to_nat (nx * ny * nz))))).

(** [sort_maxima_frac], weight_numba.py lines 398-418. *)
Fixpoint rep_insert (x : (Z * Z * Z) * q3) (l : list ((Z * Z * Z) * q3)) : list ((Z * Z * Z) * q3) :=
  match l with
  | [] => [x]
  | y :: t => if Nat.leb (flat_nat (fst x)) (flat_nat (fst y)) then x :: l else y :: rep_insert x t
  end.
Definition sort_maxima_frac (bs : list ((Z * Z * Z) * q3)) : list ((Z * Z * Z) * q3) :=
  fold_right rep_insert [] bs.

Record weight_out := { wo_labels : list Z; wo_reps : list ((Z * Z * Z) * q3); wo_charges : list Q;
  wo_volumes : list Q; wo_vac_charge : Q; wo_vac_volume : Q }.

(** base.py lines 78-114 with [WeightMethod._run_bader]; [vol] is the cell volume,
    [point_volume] is [vol / ngridpts], [num_vacuum] is [np.count_nonzero(vacuum_mask)]. *)
Definition weight_run (same : list (Z * Z * Z) -> nat -> nat -> outcome bool)
    (sorted : list (Z * Z * Z) -> list nat) (order1 : list nat) (fuel : nat) (vol : Q) : outcome weight_out :=
  let mask := get_maxima nx ny nz data (map fst nbs) vac false order1 in
  let maxima := argwhere nx ny nz mask in
  obind (initialize_labels nx ny nz data nbs fuel mask maxima (same maxima) (sorted maxima))
    (fun '(L0, bs, mask') =>
  let bs' := sort_maxima_frac bs in
  let n := inject_Z (nx * ny * nz) in
  let vacs := filter (at_flat vac) (seq 0 (Z.to_nat (nx * ny * nz))) in
  obind (weight_assign (at_flat data) (at_flat charge) (fun v => nth v mask' false) vor_of best_of
           (map (fun b => flat_nat (fst b)) bs') voxel_order L0)
    (fun '(lab, c, v) =>
  Done {| wo_labels := lab; wo_reps := bs'; wo_charges := map (fun x => x / n)%Q c;
          wo_volumes := map (fun x => x * (vol / n))%Q v;
          wo_vac_charge := (qsum (map (at_flat charge) vacs) / n)%Q;
          wo_vac_volume := (inject_Z (Z.of_nat (length vacs)) / n * vol)%Q |})).
End Run.
