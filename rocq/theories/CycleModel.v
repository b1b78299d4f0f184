(** Periodic cycles of a growing solid,
    core/labelers/bifurcation_graph/graph_numba/bifurcation_base.py lines 339-578.

    Simplifications: offsets are unbounded integers (int8 in the code); cycle vectors
    are exact rationals kept unnormalised (subtracting [(c.q) q] for the unit vector
    [q = v/|v|] is subtracting [(c.v)/(v.v) v], and [|c| > 1e-12] is [c.c > 1e-24]). *)
From Verif Require Import Base GridModel NeighModel RootsModel UnionModel ShiftModel ChargeModel.

Definition voxel3 := (Z * Z * Z)%type.
Definition at3 {A} (a : arr3 A) (v : voxel3) : A := let '(i, j, k) := v in a i j k.
Definition flat3 (ny nz : Z) (v : voxel3) : Z := let '(i, j, k) := v in coords_to_flat i j k (ny * nz) nz.

(** A loop whose body may raise. *)
Fixpoint oloop {A B} (f : A -> B -> outcome A) (l : list B) (a : A) : outcome A :=
  match l with [] => Done a | x :: t => obind (f a x) (oloop f t) end.

(** Wrapped neighbour and shift, lines 403-406 and 513-518. *)
Definition neigh3 (nx ny nz : Z) (v : voxel3) (d : offset) : voxel3 * offset :=
  let '(i, j, k) := v in let '(di, dj, dk) := d in
  wrap_point_w_shift (i + di) (j + dj) (k + dk) nx ny nz.

(** Voxels not skipped, lines 385-390 and 503-508. *)
Definition is_new (solid prev vac : arr3 bool) (v : voxel3) : bool :=
  negb (negb (at3 solid v) || at3 prev v || at3 vac v).

Section Groups.
Context (nx ny nz : Z) (fuel : nat) (neighbors : list offset).

(** One neighbour, lines 513-539: the flag found_neigh and the arrays. *)
Definition group_neigh (solid : arr3 bool) (v : voxel3) (st : bool * sforest) (d : offset)
    : outcome (bool * sforest) :=
  let '(w, s) := neigh3 nx ny nz v d in
  if negb (at3 solid w) then Done st
  else obind (union_with_shift fuel (snd st) (flat3 ny nz v) (flat3 ny nz w) s) (fun f => Done (true, f)).

Definition with_mask (f : sforest) (m : list bool) : sforest :=
  {| f_par := f_par f; f_off := f_off f; f_size := f_size f; f_mask := m |}.

(** One voxel, lines 503-543. *)
Definition group_voxel (solid prev vac : arr3 bool) (f : sforest) (v : voxel3) : outcome sforest :=
  if negb (is_new solid prev vac v) then Done f
  else obind (oloop (group_neigh solid v) neighbors (false, f)) (fun '(found, f') =>
       if found : bool then Done f'
       else obind (oget (np_set (f_mask f') (flat3 ny nz v) true)) (fun m => Done (with_mask f' m))).

(** [np.nonzero(root_mask)[0]]. *)
Definition nonzero (m : list bool) : list Z :=
  map Z.of_nat (filter (fun i => nth i m false) (seq 0 (length m))).

(** [np.searchsorted(sorted, x)]. *)
Definition searchsorted (l : list Z) (x : Z) : nat := length (filter (fun y => y <? x) l).

Definition dot (a b : vec) : Q := let '(x, y, z) := a in let '(u, v, w) := b in (x * u + y * v + z * w)%Q.
Definition scale (t : Q) (a : vec) : vec := let '(x, y, z) := a in (t * x, t * y, t * z)%Q.
Definition qoff (s : offset) : vec := let '(a, b, c) := s in (inject_Z a, inject_Z b, inject_Z c).

(** Projection loop, lines 428-432. *)
Definition project (cycles : list vec) (c : vec) : vec :=
  fold_left (fun c q => vsub c (scale (dot c q / dot q q)%Q q)) cycles c.

Definition tiny : Q := (1 # 1000000000000000000000000)%Q.

(** Lines 418-440. *)
Definition add_cycle (cycles : list vec) (c : offset) : list vec :=
  let '(x, y, z) := c in
  if (x =? 0) && (y =? 0) && (z =? 0) then cycles
  else let v := project cycles (qoff c) in
       if negb (Qle_bool (norm2 v) tiny) then cycles ++ [v] else cycles.

Definition forest := (list Z * list offset)%type.

(** One neighbour, lines 403-440. *)
Definition cycle_neigh (solid : arr3 bool) (v : voxel3) (ra : Z) (oa : offset)
    (st : forest * list vec) (d : offset) : outcome (forest * list vec) :=
  let '(w, s) := neigh3 nx ny nz v d in
  if negb (at3 solid w) then Done st
  else obind (find_root_with_shift fuel (fst (fst st)) (snd (fst st)) (flat3 ny nz w)) (fun '(p, o, rb, ob) =>
       if negb (ra =? rb) then Done ((p, o), snd st)
       else Done ((p, o), add_cycle (snd st) (osub (osub oa ob) s))).

(** One voxel, lines 385-440. *)
Definition cycle_voxel (roots : list Z) (solid prev vac : arr3 bool)
    (st : forest * list (list vec)) (v : voxel3) : outcome (forest * list (list vec)) :=
  if negb (is_new solid prev vac v) then Done st
  else obind (find_root_with_shift fuel (fst (fst st)) (snd (fst st)) (flat3 ny nz v)) (fun '(p, o, ra, oa) =>
       let t := searchsorted roots ra in
       obind (oget (nth_error (snd st) t)) (fun cycles =>
       if Nat.eqb (length cycles) 3 then Done ((p, o), snd st)
       else obind (oloop (cycle_neigh solid v ra oa) neighbors ((p, o), cycles)) (fun '(po, cycles') =>
            Done (po, upd (snd st) t cycles')))).

(** One list of previous cycles, lines 371-379. *)
Definition old_cycle (p roots : list Z) (acc : list (list vec)) (rc : Z * list vec) : outcome (list (list vec)) :=
  match snd rc with
  | [] => Done acc
  | _ => obind (find_root_nc fuel p (fst rc)) (fun r =>
         let t := searchsorted roots r in
         obind (oget (nth_error acc t)) (fun l => Done (upd acc t (l ++ snd rc))))
  end.

Record groups := { g_f : sforest; g_roots : list Z; g_cycles : list (list vec) }.

(** [find_periodic_cycles], lines 339-442. *)
Definition find_periodic_cycles (solid prev vac : arr3 bool) (g : groups) : outcome groups :=
  let f := g_f g in
  let roots := nonzero (f_mask f) in
  obind (oloop (old_cycle (f_par f) roots) (combine (g_roots g) (g_cycles g)) (repeat [] (length roots)))
    (fun cycles0 =>
  obind (oloop (cycle_voxel roots solid prev vac) (voxels nx ny nz) ((f_par f, f_off f), cycles0))
    (fun '(po, cycles) =>
  Done {| g_f := {| f_par := fst po; f_off := snd po; f_size := f_size f; f_mask := f_mask f |};
          g_roots := roots; g_cycles := cycles |})).

(** [get_connected_groups], lines 474-578. *)
Definition get_connected_groups (solid prev vac : arr3 bool) (g : groups) : outcome (groups * list Z) :=
  obind (oloop (group_voxel solid prev vac) (voxels nx ny nz) (g_f g)) (fun f =>
  obind (find_periodic_cycles solid prev vac {| g_f := f; g_roots := g_roots g; g_cycles := g_cycles g |})
    (fun g' => Done (g', map (fun c => Z.of_nat (length c)) (g_cycles g')))).

(** [get_domain_dimensionality], lines 446-470. *)
Definition get_domain_dimensionality (g : groups) (dims : list Z) (v : voxel3) : outcome Z :=
  obind (find_root_with_shift fuel (f_par (g_f g)) (f_off (g_f g)) (flat3 ny nz v)) (fun '(_, _, r, _) =>
  match find (fun rd => fst rd =? r) (combine (g_roots g) dims) with
  | Some rd => Done (snd rd)
  | None => Done 0
  end).

(** Successive solids, domain_bifurcations.py lines 319-336 and surrounded_atoms.py:
    each call continues from the previous one. *)
Fixpoint grow (vac prev : arr3 bool) (solids : list (arr3 bool)) (g : groups) (dims : list Z)
    : outcome (groups * list Z) :=
  match solids with
  | [] => Done (g, dims)
  | s :: t => obind (get_connected_groups s prev vac g) (fun '(g', dims') => grow vac s t g' dims')
  end.
End Groups.

Definition no_solid : arr3 bool := fun _ _ _ => false.
Definition groups_init (n : nat) : groups := {| g_f := shift_init n; g_roots := []; g_cycles := [] |}.
