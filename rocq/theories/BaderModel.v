(** The [Bader] object: settings, cached properties, getters and setters
    (src/baderkit/core/bader/bader.py).  The numerical work done by a getter is left
    abstract; which settings and other getters it reads, what it stores, and in which
    order, follow the code.  Not modelled: changing a grid or a returned array in place
    behind the object's back, timing and logging. *)
From Verif Require Import Base GridModel NeighModel.

(** [vacuum_tol]: [False], [True] or a number. *)
Inductive tolerance := TFalse | TTrue | TNum (q : Q).
(** Python's [tol * x] ([True] is 1). *)
Definition tol_value (t : tolerance) : Q := match t with TFalse => 0 | TTrue => 1 | TNum q => q end.
Definition is_false (t : tolerance) : bool := match t with TFalse => true | _ => false end.

(** The cached properties, bader.py lines 112-141. *)
Inductive prop :=
  | basin_labels | basin_maxima_frac | basin_maxima_charge_values | basin_maxima_ref_values | basin_maxima_vox
  | basin_charges | basin_volumes | vacuum_charge | vacuum_volume | significant_basins | vacuum_mask | num_vacuum
  | basin_min_surface_distances | basin_avg_surface_distances | basin_edges | atom_edges | structure
  | basin_atoms | basin_atom_dists | atom_labels | atom_charges | atom_volumes
  | atom_min_surface_distances | atom_avg_surface_distances.
Definition prop_dec (a b : prop) : {a = b} + {a <> b}.
Proof. decide equality. Defined.
Definition mem (p : prop) (l : list prop) : bool := if in_dec prop_dec p l then true else false.
(** The list in [_reset_properties]. *)
Definition all_props : list prop :=
  [basin_labels; basin_maxima_frac; basin_maxima_charge_values; basin_maxima_ref_values; basin_maxima_vox;
   basin_charges; basin_volumes; vacuum_charge; vacuum_volume; significant_basins; vacuum_mask; num_vacuum;
   basin_min_surface_distances; basin_avg_surface_distances; basin_edges; atom_edges; structure;
   basin_atoms; basin_atom_dists; atom_labels; atom_charges; atom_volumes;
   atom_min_surface_distances; atom_avg_surface_distances].

Section Obj.
(** [X]: whatever a getter returns that is not spelled out; [Meth]: the methods. *)
Variables X Meth : Type.

Inductive value := VMask (m : arr3 bool) | VNum (n : Z) | VStruct (volume : Q) (x : X) | VAny (x : X).
Record grid := { g_nx : Z; g_ny : Z; g_nz : Z; g_total : arr3 Q; g_volume : Q; g_rest : X }.

Record settings := { s_charge : grid; s_ref : grid; s_method : Meth; s_tol : tolerance; s_use_ref : bool; s_basin_tol : Q }.

(** What a method run puts in its result dictionary (base.py lines 118-135 and the
    [_run_bader] of each method). *)
Record run_out := { r_labels : X; r_frac : X; r_vox : X; r_ref_values : X; r_charges : X; r_volumes : X; r_vcharge : X; r_vvolume : X }.
Record assigned := { a_labels : X; a_charges : X; a_volumes : X; a_atoms : X; a_dists : X }.

(** The computations; a method run may raise. *)
Variable run_method : Meth -> grid -> grid -> value -> value -> option run_out.
Variable relabelled : X -> X.                       (* structure.copy(); relabel_sites *)
Variable values_at : grid -> value -> X.
Variable rounded : value -> value.                  (* .round(10) *)
Variable above : value -> Q -> X.                   (* charges > tol *)
Variable edges_of : value -> X -> X.                (* get_edges(labels, no vacuum, transforms) *)
Variable assign : value -> value -> value -> value -> value -> assigned.
Variable surface : value -> value -> value -> X -> value -> X * X.  (* labels, coords, edges, matrix, structure *)

Record obj := { o_set : settings; o_cache : prop -> option value }.

(** [_reset_properties] with its two optional arguments. *)
Definition reset (include_ : option (list prop)) (exclude : list prop) (o : obj) : obj :=
  let inc := match include_ with None => all_props | Some l => l end in
  let l := filter (fun p => negb (mem p exclude)) inc in
  {| o_set := o_set o; o_cache := fun p => if mem p l then None else o_cache o p |}.

(** [__init__], lines 55-103; the cache starts empty through [_reset_properties()]. *)
Definition init (charge ref : grid) (m : Meth) (tol : tolerance) (use_ref : bool) (btol : Q) : obj :=
  reset None [] {| o_set := {| s_charge := charge; s_ref := ref; s_method := m;
                               s_tol := match tol with TTrue => TNum (1 # 1000) | t => t end;
                               s_use_ref := use_ref; s_basin_tol := btol |};
                   o_cache := fun _ => None |}.
Definition fresh (s : settings) : obj := init (s_charge s) (s_ref s) (s_method s) (s_tol s) (s_use_ref s) (s_basin_tol s).

(** Getters: state plus a value, or an exception ([None]). *)
Definition M (A : Type) := obj -> obj * option A.
Definition ret {A} (a : A) : M A := fun o => (o, Some a).
Definition fail {A} : M A := fun o => (o, None).
Definition bind {A B} (m : M A) (f : A -> M B) : M B := fun o =>
  let '(o', r) := m o in match r with Some a => f a o' | None => (o', None) end.
Definition store (p : prop) (v : value) : M unit := fun o =>
  ({| o_set := o_set o; o_cache := fun q => if prop_dec q p then Some v else o_cache o q |}, Some tt).
Definition cached (p : prop) : M (option value) := fun o => (o, Some (o_cache o p)).
Definition sets : M settings := fun o => (o, Some (o_set o)).
Notation "'do' x <- m ; f" := (bind m (fun x => f)) (at level 200, x pattern, m at level 100, f at level 200).
(** [if self._p is None: <compute>] then [return self._p]; using a property that is still
    [None] raises. *)
Definition getter (p : prop) (compute : M unit) : M value :=
  do c <- cached p;
  do _ <- (match c with None => compute | Some _ => ret tt end);
  do c' <- cached p;
  match c' with Some v => ret v | None => fail end.

(** Lines 149-162. *)
Definition get_structure : M value :=
  getter structure (do s <- sets; store structure (VStruct (g_volume (s_ref s)) (relabelled (g_rest (s_ref s))))).
Definition struct_volume (v : value) : Q := match v with VStruct q _ => q | _ => 0 end.

(** Lines 622-646. *)
Definition get_vacuum_mask : M value :=
  getter vacuum_mask
    (do s <- sets;
     let g := if s_use_ref s then s_ref s else s_charge s in
     if is_false (s_tol s) then store vacuum_mask (VMask (fun _ _ _ => false))
     else do st <- get_structure;
          store vacuum_mask (VMask (fun i j k => Qltb (g_total g i j k) (tol_value (s_tol s) * struct_volume st)))).
(** [np.count_nonzero(mask)] for a mask of the reference grid's shape. *)
Definition count_true (g : grid) (v : value) : Z :=
  match v with VMask m => Z.of_nat (length (filter (fun v => rd m v) (voxels (g_nx g) (g_ny g) (g_nz g)))) | _ => 0 end.
Definition get_num_vacuum : M value :=
  getter num_vacuum (do s <- sets; do m <- get_vacuum_mask;
    store num_vacuum (VNum (count_true (if s_use_ref s then s_ref s else s_charge s) m))).

(** [run_bader], lines 705-739. *)
Definition run_bader : M unit :=
  do s <- sets;
  do m <- get_vacuum_mask;
  do n <- get_num_vacuum;
  match run_method (s_method s) (s_charge s) (s_ref s) m n with
  | None => fail
  | Some r =>
      do _ <- store basin_labels (VAny (r_labels r));
      do _ <- store basin_charges (VAny (r_charges r));
      do _ <- store basin_volumes (VAny (r_volumes r));
      do _ <- store vacuum_charge (VAny (r_vcharge r));
      do _ <- store vacuum_volume (VAny (r_vvolume r));
      do _ <- store basin_maxima_vox (VAny (r_vox r));
      do _ <- store basin_maxima_frac (VAny (r_frac r));
      store basin_maxima_ref_values (VAny (r_ref_values r))
  end.
Definition rounding (m : M value) : M value := do v <- m; ret (rounded v).

Definition get_basin_labels := getter basin_labels run_bader.
Definition get_basin_maxima_frac := getter basin_maxima_frac run_bader.
Definition get_basin_maxima_charge_values := rounding (getter basin_maxima_charge_values
  (do s <- sets; do f <- get_basin_maxima_frac; store basin_maxima_charge_values (VAny (values_at (s_charge s) f)))).
Definition get_basin_maxima_ref_values := rounding (getter basin_maxima_ref_values run_bader).
Definition get_basin_maxima_vox := getter basin_maxima_vox run_bader.
Definition get_basin_charges := rounding (getter basin_charges run_bader).
Definition get_basin_volumes := rounding (getter basin_volumes run_bader).
Definition get_vacuum_charge := rounding (getter vacuum_charge run_bader).
Definition get_vacuum_volume := rounding (getter vacuum_volume run_bader).
Definition get_significant_basins := getter significant_basins
  (do c <- get_basin_charges; do s <- sets; store significant_basins (VAny (above c (s_basin_tol s)))).
Definition get_basin_edges := getter basin_edges
  (do l <- get_basin_labels; do s <- sets; store basin_edges (VAny (edges_of l (g_rest (s_ref s))))).

(** [run_atom_assignment] with [assign_basins_to_structure], lines 741-806. *)
Definition run_atom_assignment : M unit :=
  do _ <- get_basin_maxima_frac;
  do st <- get_structure;
  do f <- get_basin_maxima_frac;
  do l <- get_basin_labels;
  do c <- get_basin_charges;
  do v <- get_basin_volumes;
  let a := assign st f l c v in
  do _ <- store basin_atoms (VAny (a_atoms a));
  do _ <- store basin_atom_dists (VAny (a_dists a));
  do _ <- store atom_labels (VAny (a_labels a));
  do _ <- store atom_charges (VAny (a_charges a));
  store atom_volumes (VAny (a_volumes a)).

Definition get_basin_atoms := getter basin_atoms run_atom_assignment.
Definition get_basin_atom_dists := rounding (getter basin_atom_dists run_atom_assignment).
Definition get_atom_labels := getter atom_labels run_atom_assignment.
Definition get_atom_charges := rounding (getter atom_charges run_atom_assignment).
Definition get_atom_volumes := rounding (getter atom_volumes run_atom_assignment).
Definition get_atom_edges := getter atom_edges
  (do l <- get_atom_labels; do s <- sets; store atom_edges (VAny (edges_of l (g_rest (s_ref s))))).

(** Lines 848-880. *)
Definition surface_distances (labels coords edges : M value) (pmin pavg : prop) : M unit :=
  do l <- labels; do c <- coords; do e <- edges; do s <- sets; do st <- get_structure;
  let '(mn, av) := surface l c e (g_rest (s_ref s)) st in
  do _ <- store pmin (VAny mn); store pavg (VAny av).
Definition get_atom_surface_distances :=
  surface_distances get_atom_labels get_structure get_atom_edges atom_min_surface_distances atom_avg_surface_distances.
Definition get_basin_surface_distances :=
  surface_distances get_basin_labels get_basin_maxima_frac get_basin_edges basin_min_surface_distances basin_avg_surface_distances.

Definition get_basin_min_surface_distances := rounding (getter basin_min_surface_distances get_basin_surface_distances).
Definition get_basin_avg_surface_distances := rounding (getter basin_avg_surface_distances get_basin_surface_distances).
Definition get_atom_min_surface_distances := rounding (getter atom_min_surface_distances get_atom_surface_distances).
(** Lines 543-554: the getter computes the basin distances, not the atom distances. *)
Definition get_atom_avg_surface_distances := rounding (getter atom_avg_surface_distances get_basin_surface_distances).

Definition get (p : prop) : M value :=
  match p with
  | basin_labels => get_basin_labels | basin_maxima_frac => get_basin_maxima_frac
  | basin_maxima_charge_values => get_basin_maxima_charge_values | basin_maxima_ref_values => get_basin_maxima_ref_values
  | basin_maxima_vox => get_basin_maxima_vox | basin_charges => get_basin_charges | basin_volumes => get_basin_volumes
  | vacuum_charge => get_vacuum_charge | vacuum_volume => get_vacuum_volume | significant_basins => get_significant_basins
  | vacuum_mask => get_vacuum_mask | num_vacuum => get_num_vacuum
  | basin_min_surface_distances => get_basin_min_surface_distances | basin_avg_surface_distances => get_basin_avg_surface_distances
  | basin_edges => get_basin_edges | atom_edges => get_atom_edges | structure => get_structure
  | basin_atoms => get_basin_atoms | basin_atom_dists => get_basin_atom_dists | atom_labels => get_atom_labels
  | atom_charges => get_atom_charges | atom_volumes => get_atom_volumes
  | atom_min_surface_distances => get_atom_min_surface_distances | atom_avg_surface_distances => get_atom_avg_surface_distances
  end.

(** The setters, lines 177-298. *)
Definition with_set (o : obj) (s : settings) : obj := {| o_set := s; o_cache := o_cache o |}.
Definition set_charge_grid (g : grid) (o : obj) : obj :=
  let s := o_set o in
  reset None [] (with_set o {| s_charge := g; s_ref := s_ref s; s_method := s_method s; s_tol := s_tol s; s_use_ref := s_use_ref s; s_basin_tol := s_basin_tol s |}).
Definition set_reference_grid (g : grid) (o : obj) : obj :=
  let s := o_set o in
  reset None [] (with_set o {| s_charge := s_charge s; s_ref := g; s_method := s_method s; s_tol := s_tol s; s_use_ref := s_use_ref s; s_basin_tol := s_basin_tol s |}).
(** An invalid method name ([None]) raises before anything changes. *)
Definition set_method (m : option Meth) (o : obj) : obj :=
  match m with
  | None => o
  | Some m =>
      let s := o_set o in
      reset None [vacuum_mask; num_vacuum]
        (with_set o {| s_charge := s_charge s; s_ref := s_ref s; s_method := m; s_tol := s_tol s; s_use_ref := s_use_ref s; s_basin_tol := s_basin_tol s |})
  end.
Definition set_vacuum_tol (t : tolerance) (o : obj) : obj :=
  let s := o_set o in
  reset None [] (with_set o {| s_charge := s_charge s; s_ref := s_ref s; s_method := s_method s; s_tol := t; s_use_ref := s_use_ref s; s_basin_tol := s_basin_tol s |}).
Definition set_use_reference_vacuum (b : bool) (o : obj) : obj :=
  let s := o_set o in
  reset None [] (with_set o {| s_charge := s_charge s; s_ref := s_ref s; s_method := s_method s; s_tol := s_tol s; s_use_ref := b; s_basin_tol := s_basin_tol s |}).
Definition set_basin_tol (q : Q) (o : obj) : obj :=
  let s := o_set o in
  reset (Some [significant_basins]) [] (with_set o {| s_charge := s_charge s; s_ref := s_ref s; s_method := s_method s; s_tol := s_tol s; s_use_ref := s_use_ref s; s_basin_tol := q |}).

(** Calls a program can make. *)
Inductive call :=
  | Get (p : prop) | RunBader | RunAtoms | SetCharge (g : grid) | SetReference (g : grid) | SetMethod (m : option Meth)
  | SetTol (t : tolerance) | SetUseRef (b : bool) | SetBasinTol (q : Q).
Definition exec (o : obj) (c : call) : obj :=
  match c with
  | Get p => fst (get p o) | RunBader => fst (run_bader o) | RunAtoms => fst (run_atom_assignment o)
  | SetCharge g => set_charge_grid g o | SetReference g => set_reference_grid g o | SetMethod m => set_method m o
  | SetTol t => set_vacuum_tol t o | SetUseRef b => set_use_reference_vacuum b o | SetBasinTol q => set_basin_tol q o
  end.
End Obj.
