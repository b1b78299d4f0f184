(** Properties C17 and C18: the cached properties of a [Bader] object and the vacuum mask.
    The numerical routines are parameters: the statements hold whatever they compute. *)
From Verif Require Import Base GridModel NeighModel BaderModel BaderProofs.

(** After any history of getter and setter calls (and runs) every getter except
    [atom_avg_surface_distances] returns what a new object with the current settings
    returns, or raises when that one raises. *)
Theorem C17_never_stale : forall (X Meth : Type) run_method relabelled values_at rounded above edges_of assign surface,
  let get := get X Meth run_method relabelled values_at rounded above edges_of assign surface in
  let exec := exec X Meth run_method relabelled values_at rounded above edges_of assign surface in
  forall s0 h p, ~ In (SetTol X Meth TTrue) h -> p <> atom_avg_surface_distances ->
  let o := fold_left exec h (fresh X Meth s0) in
  snd (get p o) = snd (get p (fresh X Meth (o_set X Meth o))).
Proof. intros. apply never_stale; assumption. Qed.
Print Assumptions C17_never_stale.

(** Two getters called in any order on the same object agree with the settings, so the
    order of getter calls does not matter. *)
Theorem C17_order_free : forall (X Meth : Type) run_method relabelled values_at rounded above edges_of assign surface,
  let get := get X Meth run_method relabelled values_at rounded above edges_of assign surface in
  let exec := exec X Meth run_method relabelled values_at rounded above edges_of assign surface in
  forall s0 h p gets, ~ In (SetTol X Meth TTrue) h -> p <> atom_avg_surface_distances ->
  let o := fold_left exec h (fresh X Meth s0) in
  snd (get p (fold_left exec (map (Get X Meth) gets) o)) = snd (get p o).
Proof.
  intros X Meth rm re va ro ab ed asg su get exec s0 h p gets NT NP o.
  assert (N' : ~ In (SetTol X Meth TTrue) (h ++ map (Get X Meth) gets)).
  { intros K. apply in_app_or in K as [K|K]; [auto|]. apply in_map_iff in K as (q & K & _). discriminate. }
  destruct (never_stale rm re va ro ab ed asg su s0 _ p N' NP) as [_ A].
  destruct (never_stale rm re va ro ab ed asg su s0 h p NT NP) as [_ B].
  unfold history in A. rewrite fold_left_app in A. unfold history in B.
  etransitivity; [exact A|etransitivity; [|symmetry; exact B]]. f_equal. change (o_set X Meth (fold_left exec (map (Get X Meth) gets) o) = o_set X Meth o).
  clear A B. assert (C : coherent rm re va ro ab ed asg su o) by apply history_coherent, fresh_coherent. clearbody o.
  unfold exec. clear - C. revert o C. induction gets as [|q gets IH]; intros o C; [reflexivity|]. cbn [map fold_left].
  etransitivity; [apply IH|].
  2: now apply exec_set_get.
  exact (exec_coherent rm re va ro ab ed asg su o (Get X Meth q) C).
Qed.
Print Assumptions C17_order_free.

(** The remaining getter: what it returns is never stale, but whether it returns depends
    on the history: on a new object it always raises ... *)
Theorem C17_atom_avg : forall (X Meth : Type) run_method relabelled values_at rounded above edges_of assign surface,
  let get := get X Meth run_method relabelled values_at rounded above edges_of assign surface in
  let exec := exec X Meth run_method relabelled values_at rounded above edges_of assign surface in
  (forall s, snd (get atom_avg_surface_distances (fresh X Meth s)) = None) /\
  (forall s0 h v s1 h1 v1, let o := fold_left exec h (fresh X Meth s0) in let o1 := fold_left exec h1 (fresh X Meth s1) in
     o_set X Meth o = o_set X Meth o1 ->
     snd (get atom_avg_surface_distances o) = Some v -> snd (get atom_avg_surface_distances o1) = Some v1 -> v = v1).
Proof.
  intros X Meth rm re va ro ab ed asg su get exec. split; [apply avg_fresh_raises|].
  intros s0 h v s1 h1 v1 o o1 E A B. apply avg_when_returned in A. apply avg_when_returned in B.
  fold (exec) in A, B. unfold history in A, B. fold exec o in A. fold exec o1 in B. rewrite E in A. congruence.
Qed.
Print Assumptions C17_atom_avg.

(** A concrete instance: values are integers, a "run" returns recognisable numbers. *)
Definition g0 : grid Z := {| g_nx := 1; g_ny := 1; g_nz := 3; g_total := fun _ _ k => (inject_Z k * (1 # 100))%Q; g_volume := 2; g_rest := 7 |}.
Definition g1 : grid Z := {| g_nx := 1; g_ny := 1; g_nz := 3; g_total := fun _ _ k => inject_Z (2 - k); g_volume := 3; g_rest := 9 |}.
Definition num_of (v : value Z) : Z := match v with VMask _ _ => 1 | VNum _ n => n | VStruct _ _ x => x | VAny _ x => x end.
Definition run_z (m : Z) (c r : grid Z) (_ n : value Z) : option (run_out Z) :=
  Some {| r_labels := m + num_of n; r_frac := m + g_rest Z r; r_vox := 3; r_ref_values := 4; r_charges := g_rest Z c; r_volumes := 5; r_vcharge := 6; r_vvolume := 8 |}.
Definition assign_z (s f l c v : value Z) : assigned Z :=
  {| a_labels := num_of l * 10; a_charges := num_of c * 10; a_volumes := num_of v * 10; a_atoms := num_of f; a_dists := num_of s |}.
Definition surface_z (l c e : value Z) (m : Z) (s : value Z) : Z * Z := (num_of l + num_of e, num_of c * m).
Definition get_z := get Z Z run_z (fun x => x) (fun _ v => num_of v) (fun v => v) (fun v _ => num_of v) (fun v x => num_of v + x) assign_z surface_z.
Definition exec_z := exec Z Z run_z (fun x => x) (fun _ v => num_of v) (fun v => v) (fun v _ => num_of v) (fun v x => num_of v + x) assign_z surface_z.
Definition s_z : settings Z Z := {| s_charge := g0; s_ref := g1; s_method := 100; s_tol := TNum (1 # 1000); s_use_ref := true; s_basin_tol := 1 # 1000 |}.

(** Finding: [atom_avg_surface_distances] raises on a new object and returns a number
    after [atom_min_surface_distances] has been read. *)
Theorem C129_atom_avg_refuted : exists h,
  let o := fold_left exec_z h (fresh Z Z s_z) in
  o_set Z Z o = s_z /\ snd (get_z atom_avg_surface_distances o) <> snd (get_z atom_avg_surface_distances (fresh Z Z (o_set Z Z o))).
Proof. exists [Get Z Z atom_min_surface_distances]. vm_compute. split; [reflexivity|discriminate]. Qed.
Print Assumptions C129_atom_avg_refuted.

(** Finding: [vacuum_tol = True] is turned into the default tolerance by the constructor
    but stored as is (that is, as 1) by the setter. *)
Theorem C130_vacuum_true_refuted : exists h,
  let o := fold_left exec_z h (fresh Z Z s_z) in
  snd (get_z num_vacuum o) = Some (VNum Z 3) /\ snd (get_z num_vacuum (fresh Z Z (o_set Z Z o))) = Some (VNum Z 1).
Proof. exists [SetTol Z Z TTrue]. vm_compute. split; reflexivity. Qed.
Print Assumptions C130_vacuum_true_refuted.

Example C17_ex :
  let h := [Get Z Z basin_charges; SetCharge Z Z g1; Get Z Z atom_charges; SetMethod Z Z (Some 200); SetBasinTol Z Z 5; SetReference Z Z g0] in
  let o := fold_left exec_z h (fresh Z Z s_z) in
  snd (get_z atom_charges o) = Some (VAny Z 90) /\ snd (get_z basin_labels o) = Some (VAny Z 201) /\
  snd (get_z atom_charges (fresh Z Z s_z)) = Some (VAny Z 70).
Proof. vm_compute. repeat split; reflexivity. Qed.

(** C18.  At any time the vacuum mask holds exactly the voxels whose value in the chosen
    grid lies below tolerance times the volume of the reference structure (none at all
    when the tolerance is [False]); it is closed downwards, and [num_vacuum] counts it. *)
Theorem C18_vacuum : forall (X Meth : Type) run_method relabelled values_at rounded above edges_of assign surface,
  let get := get X Meth run_method relabelled values_at rounded above edges_of assign surface in
  let exec := exec X Meth run_method relabelled values_at rounded above edges_of assign surface in
  forall s0 h, let o := fold_left exec h (fresh X Meth s0) in let s := o_set X Meth o in
  let g := if s_use_ref X Meth s then s_ref X Meth s else s_charge X Meth s in
  exists m, snd (get vacuum_mask o) = Some (VMask X m) /\
    (s_tol X Meth s = TFalse -> forall i j k, m i j k = false) /\
    (forall q, s_tol X Meth s = TNum q -> forall i j k, m i j k = true <-> (g_total X g i j k < q * g_volume X (s_ref X Meth s))%Q) /\
    (forall i j k i' j' k', m i j k = true -> (g_total X g i' j' k' <= g_total X g i j k)%Q -> m i' j' k' = true) /\
    snd (get num_vacuum o) = Some (VNum X (Z.of_nat (length (filter (fun v => rd m v) (voxels (g_nx X g) (g_ny X g) (g_nz X g)))))).
Proof.
  intros X Meth rm re va ro ab ed asg su get exec s0 h o s g.
  assert (C : coherent rm re va ro ab ed asg su o) by apply history_coherent, fresh_coherent.
  destruct (ok_mask rm re va ro ab ed asg su s o eq_refl C) as (_ & _ & E1).
  destruct (ok_num rm re va ro ab ed asg su s o eq_refl C) as (_ & _ & E2).
  unfold get. rewrite E1, E2. unfold sp_num. unfold sp_mask. change (vac_grid s) with g.
  destruct (s_tol X Meth s) as [| |q] eqn:T; cbn [is_false tol_value count_true]; eexists; (split; [reflexivity|]).
  - repeat split; intros; try discriminate.
  - repeat split; intros; try discriminate. cbv beta in *. apply Qltb_lt. apply Qltb_lt in H. lra.
  - repeat split; intros; try discriminate.
    + injection H as <-. now apply Qltb_lt.
    + injection H as <-. now apply Qltb_lt.
    + cbv beta in *. apply Qltb_lt. apply Qltb_lt in H. lra.
Qed.
Print Assumptions C18_vacuum.

(** Finding: tolerance [True] given to the setter does not mean the default tolerance. *)
Theorem C130_true_setter_refuted : exists m v, let o := exec_z (fresh Z Z s_z) (SetTol Z Z TTrue) in
  snd (get_z vacuum_mask o) = Some (VMask Z m) /\ rd m v = true /\
  ~ (g_total Z g1 (fst (fst v)) (snd (fst v)) (snd v) < (1 # 1000) * g_volume Z g1)%Q.
Proof.
  eexists. exists (0, 0, 1). split; [vm_compute; reflexivity|]. split; [vm_compute; reflexivity|]. vm_compute. discriminate.
Qed.
Print Assumptions C130_true_setter_refuted.

Example C18_ex : snd (get_z num_vacuum (fresh Z Z s_z)) = Some (VNum Z 1) /\
  snd (get_z num_vacuum (exec_z (fresh Z Z s_z) (SetTol Z Z TFalse))) = Some (VNum Z 0).
Proof. vm_compute. split; reflexivity. Qed.
