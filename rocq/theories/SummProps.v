(** C279-C286: summaries as dictionaries and JSON. *)
From Coq Require Import String QArith Lia.
From Verif Require Import Base SummModel.
From Verif Require KwModel.
Local Open Scope string_scope.
Local Open Scope list_scope.

(** What an entry of the summary should be. *)
Definition plain (v : py) : py := match v with PyArray l => PyList l | PyObject p _ => PyStr p | _ => v end.
Definition array (v : py) : Prop := v = PyNone \/ exists l, v = PyArray l /\ forallb serializable l = true.
Definition object (v : py) : Prop := exists p j, v = PyObject p j.
Definition has (d : dict) (k : string) (v : py) : Prop := get k d = Some v.
Definition has2 (d : dict) (s k : string) (v : py) : Prop := exists e, get s d = Some (PyDict e) /\ get k e = Some v.
Definition all (P : string -> Prop) (l : list string) : Prop := fold_right (fun k p => P k /\ p) True l.

Lemma convert_map f g keys d : (forall k v, In (k, v) d -> mem k keys = true -> f v = Some (g v)) ->
  convert f keys d = Some (map (fun x => (fst x, if mem (fst x) keys then g (snd x) else snd x)) d).
Proof.
  unfold convert. induction d as [|[k v] d IH]; intros H; [reflexivity|]. cbn [map_entries map fst snd]. rewrite IH by (intros k' v' I; apply H; now right).
  destruct (mem k keys) eqn:M; [now rewrite (H k v (or_introl eq_refl) M)|reflexivity].
Qed.
Lemma convert_other f keys d : forall r k, convert f keys d = Some r -> mem k keys = false -> get k r = get k d.
Proof.
  unfold convert. induction d as [|[k' v] d IH]; intros r k; cbn [map_entries]; [intros E; now injection E as <-|].
  destruct (if mem k' keys then f v else Some v) as [w|] eqn:W; [|discriminate]. destruct (map_entries _ d) as [t|]; [|discriminate]. intros E M. injection E as <-. cbn [get]. destruct (String.eqb k k') eqn:Q.
  - apply String.eqb_eq in Q. subst k'. rewrite M in W. now injection W as <-.
  - now apply IH.
Qed.
Lemma get_app k a b : get k (a ++ b) = match get k a with Some v => Some v | None => get k b end.
Proof. induction a as [|[k' v] a IH]; [reflexivity|]. cbn [app get]. now destruct (String.eqb k k'). Qed.
Lemma ser_bad d k v : get k d = Some v -> serializable v = false -> serializable (PyDict d) = false.
Proof.
  intros G S. cbn [serializable]. induction d as [|[k' w] d IH]; [discriminate|]. cbn [get forallb snd] in *. destruct (String.eqb k k'); [injection G as ->; now rewrite S|]. rewrite (IH G). apply andb_false_r.
Qed.
Lemma array_tolist v : array v -> unless_none tolist v = Some (plain v).
Proof. intros [->|(l & -> & _)]; reflexivity. Qed.
Lemma object_poscar v : object v -> to_poscar v = Some (plain v).
Proof. intros (p & j & ->). reflexivity. Qed.
Lemma array_plain v : array v -> serializable (plain v) = true.
Proof. intros [->|(l & -> & S)]; [reflexivity|exact S]. Qed.
Lemma object_plain v : object v -> serializable (plain v) = true.
Proof. intros (p & j & ->). reflexivity. Qed.
Lemma plain_ser v : serializable v = true -> plain v = v.
Proof. destruct v; try reflexivity; discriminate. Qed.
Lemma states_array potcar : (forall l, potcar = Some l -> forallb serializable l = true) -> array (states potcar).
Proof. intros H. destruct potcar as [l|]; [right; exists l; auto|now left]. Qed.
Lemma ser_dict d : (forall k v, In (k, v) d -> serializable v = true) -> serializable (PyDict d) = true.
Proof. intros H. cbn. apply forallb_forall. intros [k v] I. exact (H k v I). Qed.
Ltac entries I := cbn [In] in I; repeat (destruct I as [I|I]; [injection I as <- <-|]); [..|contradiction].
Lemma all_has d (g : string -> py) keys : map (fun k => get k d) keys = map (fun k => Some (g k)) keys -> all (fun k => has d k (g k)) keys.
Proof. unfold has. induction keys as [|k keys IH]; [constructor|]. cbn [map]. intros E. injection E as E1 E2. split; [exact E1|exact (IH E2)]. Qed.
Lemma all_has2 d s e (g : string -> py) keys : get s d = Some (PyDict e) -> map (fun k => get k e) keys = map (fun k => Some (g k)) keys -> all (fun k => has2 d s k (g k)) keys.
Proof. intros S E. pose proof (all_has e g keys E) as A. clear E. induction keys as [|k keys IH]; [constructor|]. destruct A as [A1 A2]. split; [exists e; split; assumption|exact (IH A2)]. Qed.
Lemma ser_cons k v d : serializable v = true -> serializable (PyDict d) = true -> serializable (PyDict ((k, v) :: d)) = true.
Proof. intros V D. cbn [serializable forallb snd] in *. now rewrite V, D. Qed.
Ltac conj := repeat match goal with H : _ /\ _ |- _ => destruct H end.
Ltac kinds := match goal with
  | M : mem ?k ?l = true |- _ => try (exfalso; clear - M; discriminate M)
  end.
Ltac entry := first [assumption|reflexivity|apply object_plain; assumption|apply array_plain; assumption].
Ltac dict_ser := repeat (apply ser_cons; [first [entry|dict_ser]|]); reflexivity.
Ltac written := unfold dumps; match goal with |- context [if ?b then _ else _] => assert (b = true) as -> by dict_ser end.
Ltac listed := first [eapply all_has2; [reflexivity|]; reflexivity|apply all_has; reflexivity].

(** ** Bader *)
Definition bader_object (attr : string -> py) : Prop := object (attr "structure") /\
  all (fun k => array (attr k)) ["atom_charges"; "atom_volumes"; "atom_min_surface_distances"; "atom_avg_surface_distances"; "basin_atoms"; "basin_atom_dists";
    "basin_charges"; "basin_volumes"; "basin_maxima_frac"; "basin_maxima_charge_values"; "basin_maxima_ref_values"; "basin_maxima_vox"; "significant_basins";
    "basin_min_surface_distances"; "basin_avg_surface_distances"] /\
  all (fun k => serializable (attr k) = true) ["method"; "vacuum_tol"; "basin_tol"; "species"; "vacuum_charge"; "vacuum_volume"; "num_vacuum"; "total_electron_number"; "total_volume"].
Theorem C279_bader attr : bader_object attr -> exists d, bader_json attr None = Some (PyDict d) /\ has d "oxidation_states" PyNone /\
  all (fun k => has2 d "method_kwargs" k (attr k)) ["method"; "vacuum_tol"; "basin_tol"] /\
  all (fun k => has2 d "atom_results" k (attr k)) ["species"] /\ all (fun k => has2 d "atom_results" k (plain (attr k))) ["atom_charges"; "atom_volumes"; "atom_min_surface_distances"; "atom_avg_surface_distances"] /\
  all (fun k => has2 d "basin_results" k (plain (attr k))) ["basin_atoms"; "basin_atom_dists"; "basin_charges"; "basin_volumes"; "basin_maxima_frac";
    "basin_maxima_charge_values"; "basin_maxima_ref_values"; "basin_maxima_vox"; "significant_basins"; "basin_min_surface_distances"; "basin_avg_surface_distances"] /\
  all (fun k => has d k (plain (attr k))) ["structure"] /\ all (fun k => has d k (attr k)) ["vacuum_charge"; "vacuum_volume"; "num_vacuum"; "total_electron_number"; "total_volume"].
Proof.
  intros (S & A & P). cbn [all fold_right] in A, P. conj. unfold bader_json, bader_dict.
  rewrite (convert_map to_poscar plain) by (intros k v I M; unfold collect in I; cbn [app map] in I; entries I; kinds; apply object_poscar; assumption). cbn [obnd].
  rewrite (convert_map (unless_none tolist) plain) by (intros k v I M; unfold collect in I; cbn [app map] in I; entries I; kinds; apply array_tolist; assumption). cbn [obnd].
  rewrite (convert_map (unless_none tolist) plain) by (intros k v I M; unfold collect in I; cbn [app map] in I; entries I; kinds; apply array_tolist; assumption). cbn [obnd].
  unfold collect. cbn [map app fst snd mem existsb String.eqb Ascii.eqb Bool.eqb orb states].
  written. eexists. split; [reflexivity|]. split; [reflexivity|]. repeat (split; [listed|]); listed.
Qed.
Print Assumptions C279_bader.
(** C280: with a POTCAR the oxidation states stay an array, which cannot be written. *)
Theorem C280_states attr l : bader_json attr (Some l) = None.
Proof.
  unfold bader_json, bader_dict. destruct (convert to_poscar _ _) as [r|] eqn:E; [|reflexivity]. cbn [obnd]. destruct (convert (unless_none tolist) _ _) as [b|]; [|reflexivity]. cbn [obnd].
  destruct (convert (unless_none tolist) _ _) as [a|]; [|reflexivity]. cbn [obnd]. unfold dumps. match goal with |- context [if ?b then _ else _] => assert (b = false) as -> end; [|reflexivity].
  assert (K : get "oxidation_states" r = Some (PyArray l)) by (rewrite (convert_other _ _ _ r "oxidation_states" E eq_refl); reflexivity). apply (ser_bad _ "oxidation_states" (PyArray l)); [|reflexivity]. rewrite get_app, K. reflexivity.
Qed.
Definition bader_written : Prop := forall attr potcar, bader_object attr -> (forall l, potcar = Some l -> forallb serializable l = true) -> bader_json attr potcar <> None.
Definition ex_bader (k : string) : py :=
  if mem k ["structure"] then PyObject "Na Cl" "{}" else
  if mem k ["method"] then PyStr "weight" else
  if mem k ["species"] then PyList [PyStr "Na"; PyStr "Cl"] else
  if mem k ["vacuum_tol"; "basin_tol"; "vacuum_charge"; "vacuum_volume"; "total_electron_number"; "total_volume"] then PyFloat (1 # 2) else
  if mem k ["num_vacuum"] then PyInt 3 else PyArray [PyFloat 1; PyFloat (3 # 2)].
Example C279_ex : bader_object ex_bader.
Proof. split; [now exists "Na Cl", "{}"|]. split; cbn [all fold_right]; repeat split; try (right; exists [PyFloat 1; PyFloat (3 # 2)]; split; reflexivity). Qed.
Theorem C280_written_refuted : exists attr l, bader_object attr /\ forallb serializable l = true /\ bader_json attr None <> None /\ bader_json attr (Some l) = None.
Proof. exists ex_bader, [PyFloat 1; PyFloat (-1)]. split; [exact C279_ex|]. split; [reflexivity|]. split; [vm_compute; discriminate|]. apply C280_states. Qed.
Example C280_not : ~ bader_written.
Proof. intros H. apply (H ex_bader (Some [PyFloat 1; PyFloat (-1)]) C279_ex); [intros l E; now injection E as <-|]. apply C280_states. Qed.
Print Assumptions C280_states. Print Assumptions C280_written_refuted.

(** ** BadELF: the summary can be written with and without a POTCAR. *)
Definition badelf_object (attr : string -> py) : Prop :=
  all (fun k => object (attr k)) ["structure"; "labeled_structure"; "electride_structure"] /\
  all (fun k => array (attr k)) ["charges"; "volumes"; "elf_maxima"; "min_surface_distances"; "avg_surface_distances"] /\
  all (fun k => serializable (attr k) = true) ["method"; "shared_feature_splitting_method"; "elf_labeler_kwargs"; "species"; "nelectrides"; "all_electride_dims";
    "all_electride_dim_cutoffs"; "electride_dimensionality"; "electride_formula"; "electrides_per_formula"; "electrides_per_reduced_formula"; "total_electron_number";
    "total_volume"; "spin_system"; "vacuum_charge"; "vacuum_volume"].
Definition good (potcar : option (list py)) : Prop := forall l, potcar = Some l -> forallb serializable l = true.
Theorem C281_badelf attr potcar : badelf_object attr -> good potcar -> exists d, badelf_json attr potcar = Some (PyDict d) /\
  (attr "spin_system" = PyStr "total" -> has d "oxidation_states" (match potcar with Some l => PyList l | None => PyNone end)) /\
  (attr "spin_system" <> PyStr "total" -> has d "oxidation_states" PyNone) /\
  all (fun k => has2 d "method_kwargs" k (attr k)) ["method"; "shared_feature_splitting_method"; "elf_labeler_kwargs"] /\
  all (fun k => has d k (plain (attr k))) ["structure"; "labeled_structure"; "electride_structure"; "charges"; "volumes"; "elf_maxima"; "min_surface_distances"; "avg_surface_distances"] /\
  all (fun k => has d k (attr k)) ["species"; "nelectrides"; "all_electride_dims"; "all_electride_dim_cutoffs"; "electride_dimensionality"; "electride_formula";
    "electrides_per_formula"; "electrides_per_reduced_formula"; "total_electron_number"; "total_volume"; "spin_system"; "vacuum_charge"; "vacuum_volume"].
Proof.
  intros (S & A & P) G. cbn [all fold_right] in S, A, P. conj. set (ox := if total_spin (attr "spin_system") then states potcar else PyNone).
  assert (OX : array ox) by (unfold ox; destruct (total_spin _); [now apply states_array|now left]).
  assert (O1 : attr "spin_system" = PyStr "total" -> plain ox = match potcar with Some l => PyList l | None => PyNone end) by (intros E; unfold ox; rewrite E; now destruct potcar).
  assert (O2 : attr "spin_system" <> PyStr "total" -> plain ox = PyNone). { intros E. unfold ox. destruct (attr "spin_system"); try reflexivity. cbn [total_spin]. destruct (String.eqb s "total") eqn:Q; [apply String.eqb_eq in Q; subst; contradiction|reflexivity]. }
  unfold badelf_json, badelf_dict. fold ox. clearbody ox.
  rewrite (convert_map to_poscar plain) by (intros k v I M; unfold collect in I; cbn [app map] in I; entries I; kinds; apply object_poscar; assumption). cbn [obnd].
  unfold collect. cbn [map app fst snd mem existsb String.eqb Ascii.eqb Bool.eqb orb].
  rewrite (convert_map (unless_none tolist) plain) by (intros k v I M; entries I; kinds; apply array_tolist; assumption). cbn [obnd].
  cbn [map app fst snd mem existsb String.eqb Ascii.eqb Bool.eqb orb].
  written. eexists. split; [reflexivity|]. split; [intros E; unfold has; cbn [get String.eqb Ascii.eqb Bool.eqb]; f_equal; auto|]. split; [intros E; unfold has; cbn [get String.eqb Ascii.eqb Bool.eqb]; f_equal; auto|]. repeat (split; [listed|]); listed.
Qed.
Print Assumptions C281_badelf.

(** ** Both spins *)
Lemma badelf_some attr potcar : badelf_object attr -> good potcar -> exists u, badelf_dict attr potcar true = Some u /\ get "method_kwargs" u = Some (PyDict (collect attr ["method"; "shared_feature_splitting_method"; "elf_labeler_kwargs"])).
Proof.
  intros B G. destruct (C281_badelf attr potcar B G) as (d & E & _). unfold badelf_json in E. destruct (badelf_dict attr potcar true) as [u|] eqn:U; [|discriminate]. exists u. split; [reflexivity|]. clear E d.
  unfold badelf_dict in U. destruct (convert to_poscar _ _) as [r|] eqn:R; [|discriminate]. cbn [obnd] in U. rewrite (convert_other _ _ _ u "method_kwargs" U eq_refl), (convert_other _ _ _ r "method_kwargs" R eq_refl). reflexivity.
Qed.
Definition spin_badelf_object (attr : string -> py) : Prop :=
  all (fun k => object (attr k)) ["structure"; "labeled_structure"; "electride_structure"] /\ all (fun k => array (attr k)) ["charges"; "volumes"] /\
  all (fun k => serializable (attr k) = true) ["spin_system"; "species"; "nelectrides"; "electride_dimensionality"; "electride_formula"; "electrides_per_formula";
    "electrides_per_reduced_formula"; "total_electron_number"; "total_volume"; "vacuum_charge"; "vacuum_volume"].
Theorem C282_spin attr up default_potcar potcar : spin_badelf_object attr -> badelf_object up -> good default_potcar -> good potcar ->
  exists d, spin_badelf_json attr up default_potcar potcar = Some (PyDict d) /\
  has d "oxidation_states" (match potcar with Some l => PyList l | None => PyNone end) /\
  all (fun k => has2 d "method_kwargs" k (up k)) ["method"; "shared_feature_splitting_method"; "elf_labeler_kwargs"] /\
  all (fun k => has d k (plain (attr k))) ["structure"; "labeled_structure"; "electride_structure"; "charges"; "volumes"] /\
  all (fun k => has d k (attr k)) ["spin_system"; "species"; "nelectrides"; "electride_dimensionality"; "electride_formula"; "electrides_per_formula";
    "electrides_per_reduced_formula"; "total_electron_number"; "total_volume"; "vacuum_charge"; "vacuum_volume"].
Proof.
  intros (S & A & P) B GD G. destruct (badelf_some up default_potcar B GD) as (u & U & K). destruct B as (_ & _ & BP). cbn [all fold_right] in S, A, P, BP. conj.
  set (ox := states potcar). assert (OX : array ox) by now apply states_array. assert (O1 : plain ox = match potcar with Some l => PyList l | None => PyNone end) by (unfold ox; now destruct potcar).
  unfold spin_badelf_json, spin_badelf_dict. rewrite U. cbn [obnd]. rewrite K. cbn [obnd]. fold ox. clearbody ox.
  rewrite (convert_map to_poscar plain) by (intros k v I M; unfold collect in I; cbn [app map] in I; entries I; kinds; apply object_poscar; assumption). cbn [obnd].
  unfold collect. cbn [map app fst snd mem existsb String.eqb Ascii.eqb Bool.eqb orb].
  rewrite (convert_map (unless_none tolist) plain) by (intros k v I M; entries I; kinds; apply array_tolist; assumption). cbn [obnd].
  cbn [map app fst snd mem existsb String.eqb Ascii.eqb Bool.eqb orb].
  written. eexists. split; [reflexivity|]. split; [unfold has; cbn [get String.eqb Ascii.eqb Bool.eqb]; f_equal; auto|]. repeat (split; [listed|]); listed.
Qed.
Print Assumptions C282_spin.
(** C283: the labeler of each spin is handed over as an object, so that its settings are not reported. *)
Definition spin_up (up : string -> py) (elf_labeler : py) : Prop := exists p j, up "elf_labeler_kwargs" = labeler_kwargs (match elf_labeler with PyDict _ => PyObject p j | o => o end).
Theorem C283_lost attr up settings default_potcar potcar d : spin_up up (PyDict settings) -> spin_badelf_dict attr up default_potcar potcar true = Some d -> has2 d "method_kwargs" "elf_labeler_kwargs" PyNone.
Proof.
  intros (p & j & L) E. unfold spin_badelf_dict in E. destruct (badelf_dict up default_potcar true) as [u|] eqn:U; [|discriminate]. cbn [obnd] in E. unfold badelf_dict in U. destruct (convert to_poscar _ _) as [r|] eqn:R; [|discriminate]. cbn [obnd] in U.
  rewrite (convert_other _ _ _ u "method_kwargs" U eq_refl), (convert_other _ _ _ r "method_kwargs" R eq_refl) in E. cbn [get app String.eqb Ascii.eqb Bool.eqb obnd] in E. destruct (convert to_poscar _ _) as [q|] eqn:Q in E; [|discriminate]. cbn [obnd] in E.
  eexists. unfold has2. rewrite (convert_other _ _ _ d "method_kwargs" E eq_refl), (convert_other _ _ _ q "method_kwargs" Q eq_refl). split; [reflexivity|]. cbn. now rewrite L.
Qed.
Definition ex_badelf (k : string) : py :=
  if mem k ["structure"; "labeled_structure"; "electride_structure"] then PyObject "Ca2 N" "{}" else
  if mem k ["charges"; "volumes"; "elf_maxima"; "min_surface_distances"; "avg_surface_distances"] then PyArray [PyFloat 1; PyFloat (3 # 2)] else
  if mem k ["spin_system"] then PyStr "up" else if mem k ["method"] then PyStr "badelf" else if mem k ["elf_labeler_kwargs"] then PyNone else PyInt 2.
Lemma ex_badelf_object : badelf_object ex_badelf /\ spin_badelf_object ex_badelf.
Proof. split; (split; [cbn [all fold_right]; repeat split; now exists "Ca2 N", "{}"|]); split; cbn [all fold_right]; repeat split; try (right; exists [PyFloat 1; PyFloat (3 # 2)]; split; reflexivity). Qed.
Theorem C283_reported_refuted : exists attr up settings d, spin_badelf_object attr /\ badelf_object up /\ spin_up up (PyDict settings) /\ spin_badelf_dict attr up None None true = Some d /\
  ~ has2 d "method_kwargs" "elf_labeler_kwargs" (PyDict settings).
Proof.
  exists ex_badelf, ex_badelf, [("min_electride_charge", PyFloat (1 # 4))]. eexists. split; [exact (proj2 ex_badelf_object)|]. split; [exact (proj1 ex_badelf_object)|]. split; [now exists "", ""|]. split; [vm_compute; reflexivity|].
  intros (e & E & F). vm_compute in E. injection E as <-. vm_compute in F. discriminate F.
Qed.
Print Assumptions C283_lost. Print Assumptions C283_reported_refuted.
Example C282_ex : exists d, spin_badelf_json ex_badelf ex_badelf None (Some [PyFloat 2]) = Some (PyDict d) /\ get "oxidation_states" d = Some (PyList [PyFloat 2]).
Proof. eexists. split; vm_compute; reflexivity. Qed.

(** ** ElfLabeler *)
Section LabelerProps.
Variable shares : string -> bool -> list py * list py.
Variable round10 : list py -> list py.
Definition written_list (l : list py) : Prop := forallb serializable l = true.
Definition numbers : Prop := (forall m e, written_list (fst (shares m e)) /\ written_list (snd (shares m e))) /\ (forall l, written_list l -> written_list (round10 l)).
Definition arrays_list (v : py) : Prop := v = PyNone \/ exists l, v = PyList l /\ Forall (fun a => exists r, a = PyArray r /\ written_list r) l.
Definition plain_json (v : py) : py := match v with PyObject _ j => PyStr j | PyArray l => PyList l | PyList l => PyList (map plain l) | _ => v end.
Definition labeler_object (attr : string -> py) : Prop :=
  all (fun k => object (attr k)) ["structure"; "labeled_structure"; "electride_structure"; "bifurcation_graph"] /\
  all (fun k => array (attr k)) ["atom_elf_radii"; "atom_elf_radii_types"; "atom_elf_radii_e"; "atom_elf_radii_types_e"; "atom_max_values_e";
    "feature_max_values"; "feature_min_values"; "feature_charges"; "feature_volumes"; "feature_coord_nums"; "feature_coord_nums_e"; "feature_min_surface_dists"; "feature_avg_surface_dists"] /\
  all (fun k => arrays_list (attr k)) ["feature_coord_dists"; "feature_coord_atoms_dists_e"] /\
  all (fun k => serializable (attr k) = true) ["crystalnn_kwargs"; "ignore_low_pseudopotentials"; "shared_shell_ratio"; "covalent_molecule_ratio"; "min_covalent_charge";
   "min_covalent_angle"; "min_electride_elf_value"; "min_electride_depth"; "min_electride_charge"; "min_electride_volume"; "min_electride_dist_beyond_atom"; "spin_system"] /\
  all (fun k => serializable (attr k) = true) ["nelectrides"; "electride_formula"; "electrides_per_formula"; "electrides_per_reduced_formula"; "feature_types";
      "feature_coord_atoms"; "feature_coord_atoms_e"; "atom_feature_indices_e"; "total_electron_number"; "total_volume"; "vacuum_charge"; "vacuum_volume"].
Lemma object_json v : object v -> unless_none obj_json v = Some (plain_json v).
Proof. intros (p & j & ->). reflexivity. Qed.
Lemma array_json v : array v -> unless_none tolist v = Some (plain_json v).
Proof. intros [->|(l & -> & _)]; reflexivity. Qed.
Lemma tolists_map l : Forall (fun a => exists r, a = PyArray r /\ written_list r) l -> tolists l = Some (map plain l) /\ written_list (map plain l).
Proof. induction 1 as [|a l (r & -> & W) F (IH1 & IH2)]; [split; reflexivity|]. cbn [tolists tolist map]. rewrite IH1. split; [reflexivity|]. unfold written_list in *. cbn. now rewrite W, IH2. Qed.
Lemma list_json v : arrays_list v -> unless_none each_tolist v = Some (plain_json v).
Proof. intros [->|(l & -> & F)]; [reflexivity|]. unfold unless_none, each_tolist. cbn [is_none]. destruct (tolists_map l F) as [-> _]. reflexivity. Qed.
Lemma json_ser v : object v \/ array v \/ arrays_list v -> serializable (plain_json v) = true.
Proof. intros [(p & j & ->)|[[->|(l & -> & S)]|[->|(l & -> & F)]]]; try reflexivity; [exact S|]. exact (proj2 (tolists_map l F)). Qed.
Lemma if_json_map f keys attr : (forall k, In k keys -> unless_none f (attr k) = Some (plain_json (attr k))) ->
  if_json true f attr keys = Some (map (fun k => (k, plain_json (attr k))) keys).
Proof.
  intros H. unfold if_json, collect. rewrite (convert_map (unless_none f) plain_json).
  - f_equal. rewrite map_map. apply map_ext_in. intros k I. cbn [fst snd]. replace (mem k keys) with true; [reflexivity|]. symmetry. apply existsb_exists. exists k. split; [exact I|apply String.eqb_refl].
  - intros k v I _. apply in_map_iff in I as (k' & E & I). injection E as <- <-. now apply H.
Qed.
Lemma all_in (P : string -> Prop) l : all P l -> forall k, In k l -> P k.
Proof. induction l as [|a l IH]; [contradiction|]. intros [A B] k [<-|I]; [exact A|exact (IH B k I)]. Qed.
(** The charges of the summary: those of the method "weighted_dist", rounded where oxidation states are given. *)
Definition charges_right (attr : string -> py) (potcar : option (bool -> list py)) (d : dict) : Prop :=
  let ok (e : bool) (suffix : string) := match (if total_spin (attr "spin_system") then potcar else None) with
    | Some f => has d ("oxidation_states" ++ suffix)%string (PyList (f e)) /\ has d ("charges" ++ suffix)%string (PyList (round10 (fst (shares "weighted_dist" e)))) /\ has d ("volumes" ++ suffix)%string (PyList (round10 (snd (shares "weighted_dist" e))))
    | None => has d ("oxidation_states" ++ suffix)%string PyNone /\ has d ("charges" ++ suffix)%string (PyList (fst (shares "weighted_dist" e))) /\ has d ("volumes" ++ suffix)%string (PyList (snd (shares "weighted_dist" e)))
    end in ok false "" /\ ok true "_e".
Ltac lentry := first [assumption|reflexivity|match goal with N : forall l, written_list l -> written_list (round10 l) |- _ => apply N; assumption end
  |match goal with G : forall f e, ?p = Some f -> _ |- serializable (match ?p with Some _ => _ | None => _ end) = true => destruct p as [f|]; [exact (G f _ eq_refl)|reflexivity] end
  |apply json_ser; first [left; assumption|right; left; assumption|right; right; assumption]].
Ltac ldict := repeat (apply ser_cons; [first [lentry|ldict]|]); reflexivity.
Theorem C284_labeler attr potcar m : numbers -> labeler_object attr -> (forall f e, potcar = Some f -> written_list (f e)) ->
  exists d, labeler_json shares round10 attr potcar m = Some (PyDict d) /\ charges_right attr potcar d /\
  has2 d "method_kwargs" "splitting_method" (PyStr m) /\
  all (fun k => has2 d "method_kwargs" k (attr k)) ["crystalnn_kwargs"; "ignore_low_pseudopotentials"; "shared_shell_ratio"; "covalent_molecule_ratio"; "min_covalent_charge";
   "min_covalent_angle"; "min_electride_elf_value"; "min_electride_depth"; "min_electride_charge"; "min_electride_volume"; "min_electride_dist_beyond_atom"] /\
  all (fun k => has d k (plain_json (attr k))) ["structure"; "labeled_structure"; "electride_structure"; "bifurcation_graph"; "atom_elf_radii"; "atom_elf_radii_types"; "atom_elf_radii_e"; "atom_elf_radii_types_e"; "atom_max_values_e";
    "feature_max_values"; "feature_min_values"; "feature_charges"; "feature_volumes"; "feature_coord_nums"; "feature_coord_nums_e"; "feature_min_surface_dists"; "feature_avg_surface_dists"; "feature_coord_dists"; "feature_coord_atoms_dists_e"] /\
  all (fun k => has d k (attr k)) ["spin_system"; "nelectrides"; "electride_formula"; "electrides_per_formula"; "electrides_per_reduced_formula"; "feature_types";
      "feature_coord_atoms"; "feature_coord_atoms_e"; "atom_feature_indices_e"; "total_electron_number"; "total_volume"; "vacuum_charge"; "vacuum_volume"].
Proof.
  intros (N1 & N2) (O & A & L & P & R) G. unfold labeler_json, labeler_dict.
  rewrite if_json_map by (intros k I; apply object_json; exact (all_in (fun k => object (attr k)) _ O k I)). cbn [obnd].
  rewrite if_json_map by (intros k I; apply array_json; exact (all_in (fun k => array (attr k)) _ A k I)). cbn [obnd].
  rewrite if_json_map by (intros k I; apply list_json; exact (all_in (fun k => arrays_list (attr k)) _ L k I)). cbn [obnd].
  cbn [all fold_right] in O, A, L, P, R. conj. unfold charges_right. set (c := if total_spin (attr "spin_system") then potcar else None).
  assert (C : forall f e, c = Some f -> written_list (f e)) by (intros f e E; unfold c in E; destruct (total_spin _); [now apply G|discriminate]). clearbody c.
  unfold collect, reported_settings, default_method. pose proof (N1 "weighted_dist" false) as [N3 N4]. pose proof (N1 "weighted_dist" true) as [N5 N6]. destruct c as [f|].
  - pose proof (C f false eq_refl) as F1. pose proof (C f true eq_refl) as F2. unfold charge_entries, rounded. cbn [map app fst snd]. unfold dumps. match goal with |- context [if ?b then _ else _] => assert (b = true) as -> end.
    { ldict. }
    eexists. split; [reflexivity|]. split; [unfold has; cbn [append]; repeat split; reflexivity|]. split; [eexists; split; reflexivity|]. repeat (split; [listed|]); listed.
  - unfold charge_entries. cbn [map app fst snd]. unfold dumps. match goal with |- context [if ?b then _ else _] => assert (b = true) as -> end.
    { ldict. }
    eexists. split; [reflexivity|]. split; [unfold has; cbn [append]; repeat split; reflexivity|]. split; [eexists; split; reflexivity|]. repeat (split; [listed|]); listed.
Qed.
Definition spin_labeler_object (attr : string -> py) : Prop :=
  all (fun k => object (attr k)) ["structure"; "labeled_structure"; "electride_structure"] /\
  all (fun k => array (attr k)) ["atom_elf_radii"; "atom_elf_radii_types"; "atom_elf_radii_e"; "atom_elf_radii_types_e"] /\
  all (fun k => serializable (attr k) = true) ["spin_system"; "nelectrides"; "feature_types"; "electride_formula"; "electrides_per_formula"; "electrides_per_reduced_formula"; "total_electron_number"; "total_volume"; "vacuum_charge"; "vacuum_volume"].
Theorem C284_spin attr potcar m : numbers -> spin_labeler_object attr -> (forall f e, potcar = Some f -> written_list (f e)) ->
  exists d, spin_labeler_json shares attr potcar m = Some (PyDict d) /\
  has d "charges" (PyList (fst (shares "weighted_dist" false))) /\ has d "charges_e" (PyList (fst (shares "weighted_dist" true))) /\
  has d "volumes" (PyList (snd (shares "weighted_dist" false))) /\ has d "volumes_e" (PyList (snd (shares "weighted_dist" true))) /\
  (has d "oxidation_states" (match potcar with Some f => PyList (f false) | None => PyNone end) /\ has d "oxidation_states_e" (match potcar with Some f => PyList (f true) | None => PyNone end)) /\
  has2 d "method_kwargs" "splitting_method" (PyStr m) /\
  all (fun k => has d k (plain_json (attr k))) ["structure"; "labeled_structure"; "electride_structure"; "atom_elf_radii"; "atom_elf_radii_types"; "atom_elf_radii_e"; "atom_elf_radii_types_e"] /\
  all (fun k => has d k (attr k)) ["spin_system"; "nelectrides"; "feature_types"; "electride_formula"; "electrides_per_formula"; "electrides_per_reduced_formula"; "total_electron_number"; "total_volume"; "vacuum_charge"; "vacuum_volume"].
Proof.
  intros (N1 & _) (O & A & P) G. unfold spin_labeler_json, spin_labeler_dict.
  rewrite if_json_map by (intros k I; apply object_json; exact (all_in (fun k => object (attr k)) _ O k I)). cbn [obnd].
  rewrite if_json_map by (intros k I; apply array_json; exact (all_in (fun k => array (attr k)) _ A k I)). cbn [obnd].
  cbn [all fold_right] in O, A, P. conj. unfold collect, default_method. pose proof (N1 "weighted_dist" false) as [N3 N4]. pose proof (N1 "weighted_dist" true) as [N5 N6].
  unfold charge_entries. cbn [map app fst snd]. unfold dumps. match goal with |- context [if ?b then _ else _] => assert (b = true) as -> end.
  { ldict. }
  eexists. split; [reflexivity|]. do 4 (split; [reflexivity|]). split; [split; reflexivity|]. split; [eexists; split; reflexivity|]. split; listed.
Qed.
End LabelerProps.
Print Assumptions C284_labeler. Print Assumptions C284_spin.

(** C285: the method named in the summary is not the one used. *)
Definition ex_labeler (k : string) : py :=
  if mem k ["structure"; "labeled_structure"; "electride_structure"; "bifurcation_graph"] then PyObject "Ca2 N" "{}" else
  if mem k ["atom_elf_radii"; "atom_elf_radii_types"; "atom_elf_radii_e"; "atom_elf_radii_types_e"; "atom_max_values_e"; "feature_max_values"; "feature_min_values"; "feature_charges"; "feature_volumes";
    "feature_coord_nums"; "feature_coord_nums_e"; "feature_min_surface_dists"; "feature_avg_surface_dists"] then PyArray [PyFloat 1; PyFloat 2] else
  if mem k ["feature_coord_dists"; "feature_coord_atoms_dists_e"] then PyList [PyArray [PyFloat 1]; PyArray []] else
  if mem k ["spin_system"] then PyStr "total" else PyInt 1.
Definition ex_shares (m : string) (e : bool) : list py * list py := (if String.eqb m "equal" then [PyFloat 1; PyFloat 1] else [PyFloat (1 # 2); PyFloat (3 # 2)], [PyFloat 10; PyFloat 10]).
Lemma ex_labeler_object : labeler_object ex_labeler /\ spin_labeler_object ex_labeler.
Proof.
  split; (split; [cbn [all fold_right]; repeat split; now exists "Ca2 N", "{}"|]); (split; [cbn [all fold_right]; repeat split; right; exists [PyFloat 1; PyFloat 2]; split; reflexivity|]).
  - split; [cbn [all fold_right]; repeat split; right; exists [PyArray [PyFloat 1]; PyArray []]; (split; [reflexivity|]); repeat constructor; eexists; split; reflexivity|]. split; cbn [all fold_right]; repeat split.
  - cbn [all fold_right]; repeat split.
Qed.
Lemma ex_numbers : numbers ex_shares (fun l => l).
Proof. split; [|auto]. intros m e. unfold ex_shares. cbn [fst snd]. destruct (String.eqb m "equal"); split; reflexivity. Qed.
Theorem C285_used_refuted : exists shares m attr d d', numbers shares (fun l => l) /\ labeler_object attr /\ spin_labeler_object attr /\
  labeler_dict shares (fun l => l) attr None true m = Some d /\ has2 d "method_kwargs" "splitting_method" (PyStr m) /\ ~ has d "charges" (PyList (fst (shares m false))) /\
  spin_labeler_dict shares attr None true m = Some d' /\ has2 d' "method_kwargs" "splitting_method" (PyStr m) /\ ~ has d' "charges" (PyList (fst (shares m false))).
Proof.
  exists ex_shares, "equal", ex_labeler. eexists. eexists. split; [exact ex_numbers|]. split; [exact (proj1 ex_labeler_object)|]. split; [exact (proj2 ex_labeler_object)|].
  split; [vm_compute; reflexivity|]. split; [eexists; split; [vm_compute; reflexivity|reflexivity]|]. split; [unfold has; vm_compute; discriminate|].
  split; [vm_compute; reflexivity|]. split; [eexists; split; [vm_compute; reflexivity|reflexivity]|]. unfold has; vm_compute; discriminate.
Qed.
(** C286: some settings of the labeler are not reported: objects that differ in one of them have the same summary of
    settings. *)
Definition with_setting (k : string) (v : py) (attr : string -> py) : string -> py := fun k' => if String.eqb k' k then v else attr k'.
Theorem C286_unreported : forall k, In k ["combine_shells"; "shallow_reducible_cutoff"; "shallow_irreducible_cutoff"] ->
  forall shares round10 attr potcar use_json m v, labeler_dict shares round10 (with_setting k v attr) potcar use_json m = labeler_dict shares round10 attr potcar use_json m.
Proof. intros k I shares round10 attr potcar use_json m v. repeat (destruct I as [<-|I]; [reflexivity|]). contradiction. Qed.
Theorem C286_complete_refuted : exists k attr attr' d, In k (map fst KwModel.labeler_settings) /\ labeler_object attr /\ labeler_object attr' /\ attr k <> attr' k /\
  labeler_dict ex_shares (fun l => l) attr None true "equal" = Some d /\ labeler_dict ex_shares (fun l => l) attr' None true "equal" = Some d.
Proof.
  exists "combine_shells", ex_labeler, (with_setting "combine_shells" (PyBool false) ex_labeler). eexists. split; [cbn; tauto|]. split; [exact (proj1 ex_labeler_object)|]. split; [exact (proj1 ex_labeler_object)|].
  split; [vm_compute; discriminate|]. split; [vm_compute; reflexivity|]. rewrite (C286_unreported "combine_shells") by (cbn; tauto). vm_compute. reflexivity.
Qed.
Print Assumptions C285_used_refuted. Print Assumptions C286_unreported. Print Assumptions C286_complete_refuted.
