(** The [Badelf] object, core/badelf/badelf.py: settings, stored results and getters (lines 136-171, 313-340, 354-374,
    376-446, 447-460, 462-559, 560-609, 744-809, 851-970, 1019-1033).

    What the calculations yield is given by [world]; [None] is an exception.  The attributes [method] and
    [shared_feature_splitting_method] are public and have no setters.  The structures do not depend on them: [natoms] and
    [nsites] are the lengths of [structure] and [electride_structure].  Changing returned arrays in place is not modelled. *)
From Coq Require Import QArith.
From Verif Require Import Base.
Local Open Scope Z_scope.

Inductive meth := Badelf | Voronelf.
Inductive how := ZeroFlux | Planar (m : meth).

Section Badelf.
Variables Labels Planes Split : Type.
Record world := {
  zero_flux : option Labels;                         (* get_feature_labels, line 367 *)
  planes_of : meth -> option Planes;                 (* lines 395-445 *)
  zf_charges : Split -> option (list Q * list Q);    (* get_charges_and_volumes, line 484 *)
  assign : meth -> Planes -> Labels -> option (Labels * (list Q * list Q));  (* lines 490-557 *)
  natoms : nat;
  nsites : nat;
  dims_of : Labels -> option (list nat * list Q);    (* lines 761-807 *)
  dists_of : Labels -> option (list Q * list Q);     (* lines 858-872 *)
  factor : Q;                                        (* formula_reduction_factor *)
  vac_charge : Q;
  vac_volume : Q;
  r10 : Q -> Q                                       (* round(.., 10) *)
}.
(** [-1] or a value. *)
Inductive mark (A : Type) := Minus1 | Val (a : A).
Arguments Minus1 {A}. Arguments Val {A}.
Record state := {
  method : how; split : Split;
  c_planes : option Planes; c_zero : option Labels;
  c_labels : option Labels; c_charges : option (list Q); c_volumes : option (list Q);
  c_dims : option (mark (list nat)); c_cuts : option (mark (list Q)); c_dim : option nat;
  c_min : option (list Q); c_avg : option (list Q);
  c_epf : option Q; c_eprf : option Q
}.
(** Lines 136-171. *)
Definition new_object (m : how) (s : Split) : state := {| method := m; split := s; c_planes := None; c_zero := None; c_labels := None; c_charges := None;
  c_volumes := None; c_dims := None; c_cuts := None; c_dim := None; c_min := None; c_avg := None; c_epf := None; c_eprf := None |}.
Definition set_settings m sp (s : state) := {| method := m; split := sp; c_planes := c_planes s; c_zero := c_zero s; c_labels := c_labels s; c_charges := c_charges s;
  c_volumes := c_volumes s; c_dims := c_dims s; c_cuts := c_cuts s; c_dim := c_dim s; c_min := c_min s; c_avg := c_avg s; c_epf := c_epf s; c_eprf := c_eprf s |}.
Definition set_planes p (s : state) := {| method := method s; split := split s; c_planes := p; c_zero := c_zero s; c_labels := c_labels s; c_charges := c_charges s;
  c_volumes := c_volumes s; c_dims := c_dims s; c_cuts := c_cuts s; c_dim := c_dim s; c_min := c_min s; c_avg := c_avg s; c_epf := c_epf s; c_eprf := c_eprf s |}.
Definition set_zero z (s : state) := {| method := method s; split := split s; c_planes := c_planes s; c_zero := z; c_labels := c_labels s; c_charges := c_charges s;
  c_volumes := c_volumes s; c_dims := c_dims s; c_cuts := c_cuts s; c_dim := c_dim s; c_min := c_min s; c_avg := c_avg s; c_epf := c_epf s; c_eprf := c_eprf s |}.
Definition set_labels l (s : state) := {| method := method s; split := split s; c_planes := c_planes s; c_zero := c_zero s; c_labels := l; c_charges := c_charges s;
  c_volumes := c_volumes s; c_dims := c_dims s; c_cuts := c_cuts s; c_dim := c_dim s; c_min := c_min s; c_avg := c_avg s; c_epf := c_epf s; c_eprf := c_eprf s |}.
Definition set_charges c v (s : state) := {| method := method s; split := split s; c_planes := c_planes s; c_zero := c_zero s; c_labels := c_labels s; c_charges := c;
  c_volumes := v; c_dims := c_dims s; c_cuts := c_cuts s; c_dim := c_dim s; c_min := c_min s; c_avg := c_avg s; c_epf := c_epf s; c_eprf := c_eprf s |}.
Definition set_dims d c (s : state) := {| method := method s; split := split s; c_planes := c_planes s; c_zero := c_zero s; c_labels := c_labels s; c_charges := c_charges s;
  c_volumes := c_volumes s; c_dims := d; c_cuts := c; c_dim := c_dim s; c_min := c_min s; c_avg := c_avg s; c_epf := c_epf s; c_eprf := c_eprf s |}.
Definition set_dim d (s : state) := {| method := method s; split := split s; c_planes := c_planes s; c_zero := c_zero s; c_labels := c_labels s; c_charges := c_charges s;
  c_volumes := c_volumes s; c_dims := c_dims s; c_cuts := c_cuts s; c_dim := d; c_min := c_min s; c_avg := c_avg s; c_epf := c_epf s; c_eprf := c_eprf s |}.
Definition set_dists a b (s : state) := {| method := method s; split := split s; c_planes := c_planes s; c_zero := c_zero s; c_labels := c_labels s; c_charges := c_charges s;
  c_volumes := c_volumes s; c_dims := c_dims s; c_cuts := c_cuts s; c_dim := c_dim s; c_min := a; c_avg := b; c_epf := c_epf s; c_eprf := c_eprf s |}.
Definition set_formula a b (s : state) := {| method := method s; split := split s; c_planes := c_planes s; c_zero := c_zero s; c_labels := c_labels s; c_charges := c_charges s;
  c_volumes := c_volumes s; c_dims := c_dims s; c_cuts := c_cuts s; c_dim := c_dim s; c_min := c_min s; c_avg := c_avg s; c_epf := a; c_eprf := b |}.

Definition M (A : Type) : Type := state -> option A * state.
Definition ret {A} (a : A) : M A := fun s => (Some a, s).
Definition raise {A} : M A := fun s => (None, s).
Definition bind {A B} (m : M A) (f : A -> M B) : M B := fun s => match m s with (Some a, s) => f a s | (None, s) => (None, s) end.
Definition read {A} (f : state -> A) : M A := fun s => (Some (f s), s).
Definition modify (f : state -> state) : M unit := fun s => (Some tt, f s).
Definition of_option {A} (o : option A) : M A := match o with Some a => ret a | None => raise end.
Notation "'let!' x := m 'in' k" := (bind m (fun x => k)) (at level 200, x pattern, m at level 100, k at level 200).
(** [if self._x is None: fill] *)
Definition if_unset {A} (f : state -> option A) (fill : M unit) : M unit := let! o := read f in match o with None => fill | Some _ => ret tt end.
(** Reading an attribute that is [None] where a value is needed raises. *)
Definition need {A} (f : state -> option A) : M A := let! o := read f in of_option o.

Variable w : world.
(** Lines 365-374. *)
Definition zero_flux_labels : M Labels :=
  let! _ := if_unset c_zero (let! z := of_option (zero_flux w) in modify (set_zero (Some z))) in need c_zero.
(** Lines 389-446; [None] as an answer is the triple of [None]. *)
Definition partitioning_planes : M (option Planes) :=
  let! m := read method in
  match m with
  | ZeroFlux => ret None
  | Planar m => let! _ := if_unset c_planes (let! p := of_option (planes_of w m) in modify (set_planes (Some p))) in read c_planes
  end.
(** Lines 462-559. *)
Definition get_voxel_assignments : M unit :=
  let! p := partitioning_planes in
  let! z := zero_flux_labels in
  let! m := read method in
  match m with
  | ZeroFlux =>
      let! _ := modify (set_labels (Some z)) in
      let! sp := read split in
      let! (c, v) := of_option (zf_charges w sp) in modify (set_charges (Some c) (Some v))
  | Planar m =>
      let! p := of_option p in
      let! (l, (c, v)) := of_option (assign w m p z) in
      let! _ := modify (set_labels (Some l)) in modify (set_charges (Some c) (Some v))
  end.
(** Lines 323-325, 337-339 and 458-460. *)
Definition charges : M (list Q) := let! _ := if_unset c_charges get_voxel_assignments in let! c := need c_charges in ret (map (r10 w) c).
Definition volumes : M (list Q) := let! _ := if_unset c_volumes get_voxel_assignments in let! c := need c_volumes in ret (map (r10 w) c).
Definition atom_labels : M Labels := let! _ := if_unset c_labels get_voxel_assignments in need c_labels.
(** Lines 744-809: the first lines do not return. *)
Definition get_electride_dimensionality : M unit :=
  let! _ := (if Nat.eqb (nsites w - natoms w) 0 then modify (set_dims (Some Minus1) (Some Minus1)) else ret tt) in
  let! l := atom_labels in
  let! (d, c) := of_option (dims_of w l) in modify (set_dims (Some (Val d)) (Some (Val c))).
(** Lines 571-577, 590-594 and 606-609. *)
Definition unmark {A} (m : mark A) : option A := match m with Minus1 => None | Val a => Some a end.
Definition all_electride_dims : M (option (list nat)) := let! _ := if_unset c_dims get_electride_dimensionality in let! d := need c_dims in ret (unmark d).
Definition all_electride_dim_cutoffs : M (option (list Q)) := let! _ := if_unset c_cuts get_electride_dimensionality in let! d := need c_cuts in ret (unmark d).
Definition electride_dimensionality : M (option nat) :=
  let! _ := if_unset c_dim (let! d := all_electride_dims in
    match d with None => ret tt | Some d => let! x := of_option (hd_error d) in modify (set_dim (Some x)) end) in read c_dim.
(** Lines 851-903. *)
Definition get_min_avg_surface_dists : M unit :=
  let! l := atom_labels in let! (a, b) := of_option (dists_of w l) in modify (set_dists (Some a) (Some b)).
Definition min_surface_distances : M (list Q) := let! _ := if_unset c_min get_min_avg_surface_dists in let! c := need c_min in ret (map (r10 w) c).
Definition avg_surface_distances : M (list Q) := let! _ := if_unset c_avg get_min_avg_surface_dists in let! c := need c_avg in ret (map (r10 w) c).
(** Lines 914-919, the loop; the charges are read for every site. *)
Fixpoint sum_sites (n i : nat) (acc : Q) : M Q :=
  match n with
  | O => ret acc
  | S n => let! c := charges in let! x := of_option (nth_error c i) in sum_sites n (S i) (acc + x)%Q
  end.
Definition electrides_per_formula : M Q :=
  let! _ := if_unset c_epf (let! e := sum_sites (nsites w - natoms w) (natoms w) 0%Q in let! o := read c_eprf in modify (set_formula (Some e) o)) in
  let! e := need c_epf in ret (r10 w e).
(** Lines 931-939. *)
Definition electrides_per_reduced_formula : M Q :=
  let! _ := if_unset c_eprf (let! e := electrides_per_formula in let! o := read c_epf in modify (set_formula o (Some (e / factor w)%Q))) in
  let! e := need c_eprf in ret (r10 w e).
(** Lines 967 and 1033. *)
Definition qsum (l : list Q) : Q := fold_right Qplus 0%Q l.
Definition total_volume : M Q := let! v := volumes in ret (r10 w (qsum v + vac_volume w)%Q).
Definition total_electron_number : M Q := let! c := charges in ret (r10 w (qsum c + vac_charge w)%Q).

Inductive getter := GCharges | GVolumes | GLabels | GPlanes | GDims | GCuts | GDim | GMin | GAvg | GElectrides | GReduced | GVolume | GElectrons.
Inductive answer := ALabels (l : Labels) | ANumbers (q : list Q) | ANumber (q : Q) | APlanes (p : option Planes) | ADims (d : option (list nat)) | ACuts (c : option (list Q)) | ADim (d : option nat).
Definition answered {A} (f : A -> answer) (m : M A) : M answer := let! a := m in ret (f a).
Definition get (g : getter) : M answer :=
  match g with
  | GCharges => answered ANumbers charges
  | GVolumes => answered ANumbers volumes
  | GLabels => answered ALabels atom_labels
  | GPlanes => answered APlanes partitioning_planes
  | GDims => answered ADims all_electride_dims
  | GCuts => answered ACuts all_electride_dim_cutoffs
  | GDim => answered ADim electride_dimensionality
  | GMin => answered ANumbers min_surface_distances
  | GAvg => answered ANumbers avg_surface_distances
  | GElectrides => answered ANumber electrides_per_formula
  | GReduced => answered ANumber electrides_per_reduced_formula
  | GVolume => answered ANumber total_volume
  | GElectrons => answered ANumber total_electron_number
  end.
(** Reads and assignments to the two attributes. *)
Inductive event := Get (g : getter) | SetMethod (m : how) | SetSplit (s : Split).
Definition step (e : event) (s : state) : option (option answer) * state :=
  match e with
  | Get g => let '(a, s) := get g s in (Some a, s)
  | SetMethod m => (None, set_settings m (split s) s)
  | SetSplit sp => (None, set_settings (method s) sp s)
  end.
Fixpoint run (h : list event) (s : state) : list (option (option answer)) * state :=
  match h with [] => ([], s) | e :: h => let '(a, s) := step e s in let '(b, s) := run h s in (a :: b, s) end.
End Badelf.
