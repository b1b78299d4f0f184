(** Files of features and atoms: the properties. *)
From Coq Require Import QArith String DecimalString Lia.
From Verif Require Import Base RootsModel UnionModel GridModel NeighModel ChargeModel LabelsModel NearModel SurfaceModel MarkModel ReportModel WriteModel WriteProofs.
Local Open Scope Z_scope.

(** The decimal digits of a number. *)
Notation dec i := (NilZero.string_of_int (Z.to_int i)).
Notation feature l i := (nth (Z.to_nat i) (w_nodes l) no_node).
Definition prefix_used (reference : bool) (l : labeler) (prefix : option string) : string :=
  match prefix with Some p => p | None => if reference then w_reference_prefix l else w_charge_prefix l end.
Definition data_used (reference : bool) (l : labeler) : arr3 Q := if reference then w_reference l else w_charge l.
(** The array keeps the data in the given basins and is 0 elsewhere. *)
Definition only_in (basins : Z -> Prop) (data : arr3 Q) (labels : arr3 Z) (a : arr3 Q) : Prop :=
  forall i j k, (basins (labels i j k) -> a i j k = data i j k) /\ (~ basins (labels i j k) -> a i j k = 0%Q).
Definition basin_of (n : rnode) (b : Z) : Prop := exists x, In x (r_basins n) /\ b = Z.of_nat x.
Lemma basin_of_in n b : basin_of n b <-> In b (basins_of n).
Proof. unfold basin_of, basins_of. rewrite in_map_iff. split; intros (x & H & E); exists x; auto. Qed.
Lemma shows_one data labels n a : shows data labels (basins_of n) a -> only_in (basin_of n) data labels a.
Proof. intros H i j k. destruct (H i j k) as [A B]. rewrite basin_of_in. auto. Qed.
Lemma shows_union l indices data labels a : shows data labels (union_of l indices) a ->
  only_in (fun b => exists i, In i indices /\ basin_of (feature l i) b) data labels a.
Proof.
  intros H i j k. destruct (H i j k) as [A B].
  assert (E : In (labels i j k) (union_of l indices) <-> exists x, In x indices /\ basin_of (feature l x) (labels i j k)).
  { unfold union_of. rewrite in_flat_map. split; intros (x & Hx & E); exists x; (split; [exact Hx|]); now apply basin_of_in. }
  rewrite <- E. auto.
Qed.

(** ** C191 *)
Theorem C191_features : forall l indices d dummy reference prefix f,
  d <> TextDir -> (forall i, In i indices -> 0 <= i < Z.of_nat (List.length (w_nodes l))) ->
  let p := prefix_used reference l prefix in
  exists f', write_feature_basins l indices d dummy reference prefix f = Done f' /\
    (forall i, In i indices -> exists s a, f' (p ++ "_f" ++ dec i)%string = Some (s, a) /\
      s = w_atoms l ++ (if dummy then map (fun j => site_of (feature l j)) indices else []) /\
      only_in (basin_of (feature l i)) (data_used reference l) (w_labels l) a) /\
    (forall n, (forall i, In i indices -> n <> (p ++ "_f" ++ dec i)%string) -> f' n = f n).
Proof.
  intros l indices d dummy reference prefix f D V p.
  destruct (basins_done l indices d dummy reference prefix f D V) as (f' & E & A & B). exists f'. split; [exact E|]. split.
  - intros i H. destruct (A i H) as (a & Ea & Sa). eexists _, a. split; [exact Ea|]. split; [reflexivity|now apply shows_one].
  - intros n H. apply B. intros I. apply in_map_iff in I as (i & En & Hi). exact (H i Hi (eq_sym En)).
Qed.
Print Assumptions C191_features.

(** Different features have different files. *)
Theorem C191_names : forall p i j, (p ++ "_f" ++ dec i)%string = (p ++ "_f" ++ dec j)%string -> i = j.
Proof. exact feature_file_inj. Qed.
Print Assumptions C191_names.

(** All features together hold the data of every basin that belongs to a feature, once. *)
Definition file_value (f : files) (n : string) (v : Z * Z * Z) : Q :=
  match f n with Some (_, a) => rd a v | None => 0%Q end.
Lemma sum_one (g : nat -> Q) n k : (k < n)%nat -> (forall j, (j < n)%nat -> j <> k -> g j = 0%Q) -> qsum (map g (seq 0 n)) == g k.
Proof.
  intros H Z0.
  assert (G : forall m b, (b <= k < b + m)%nat -> (forall j, (b <= j < b + m)%nat -> j <> k -> g j = 0%Q) -> qsum (map g (seq b m)) == g k).
  { induction m as [|m IH]; intros b Hb ZZ; [lia|]. cbn [seq map qsum fold_right].
    change (g b + qsum (map g (seq (S b) m)) == g k).
    destruct (Nat.eq_dec b k) as [->|N].
    - assert (Z1 : forall c q, (k < q)%nat -> (q + c <= S k + m)%nat -> qsum (map g (seq q c)) == 0).
      { induction c as [|c IHc]; intros q Hq Hc; [reflexivity|]. cbn [seq map].
        change (g q + qsum (map g (seq (S q) c)) == 0). rewrite (ZZ q) by lia. rewrite IHc by lia. reflexivity. }
      rewrite Z1 by lia. apply Qplus_0_r.
    - rewrite (ZZ b) by lia. rewrite IH; [apply Qplus_0_l|lia|]. intros j Hj. apply ZZ. lia. }
  apply (G n 0%nat); [lia|]. intros j Hj. apply Z0. lia.
Qed.
Lemma sum_none (g : nat -> Q) n : (forall j, (j < n)%nat -> g j = 0%Q) -> qsum (map g (seq 0 n)) == 0.
Proof.
  intros Z0. assert (G : forall m b, (b + m <= n)%nat -> qsum (map g (seq b m)) == 0).
  { induction m as [|m IH]; intros b H; [reflexivity|]. cbn [seq map]. change (g b + qsum (map g (seq (S b) m)) == 0).
    rewrite (Z0 b) by lia. rewrite IH by lia. reflexivity. }
  apply G. lia.
Qed.
Theorem C191_all : forall l d dummy reference prefix f,
  d <> TextDir ->
  (forall m n b, (m < List.length (w_nodes l))%nat -> (n < List.length (w_nodes l))%nat ->
    In b (r_basins (nth m (w_nodes l) no_node)) -> In b (r_basins (nth n (w_nodes l) no_node)) -> m = n) ->
  let p := prefix_used reference l prefix in
  exists f', write_all_features l d dummy reference prefix f = Done f' /\
    forall v, let total := qsum (map (fun n => file_value f' (p ++ "_f" ++ dec (Z.of_nat n))%string v) (seq 0 (List.length (w_nodes l)))) in
      ((exists n, In n (w_nodes l) /\ basin_of n (rd (w_labels l) v)) -> total == rd (data_used reference l) v) /\
      ((forall n, In n (w_nodes l) -> ~ basin_of n (rd (w_labels l) v)) -> total == 0).
Proof.
  intros l d dummy reference prefix f D U p.
  destruct (C191_features l (all_indices l) d dummy reference prefix f D (all_valid l)) as (f' & E & A & _). exists f'. split; [exact E|].
  assert (A' : forall n, (n < List.length (w_nodes l))%nat -> exists s a, f' (p ++ "_f" ++ dec (Z.of_nat n))%string = Some (s, a) /\
    only_in (basin_of (nth n (w_nodes l) no_node)) (data_used reference l) (w_labels l) a).
  { intros n H. destruct (A (Z.of_nat n)) as (s & a & Ea & _ & Sa); [apply in_all; lia|]. exists s, a. split; [exact Ea|]. now rewrite Nat2Z.id in Sa. }
  assert (V0 : forall n v, (n < List.length (w_nodes l))%nat -> ~ basin_of (nth n (w_nodes l) no_node) (rd (w_labels l) v) ->
    file_value f' (p ++ "_f" ++ dec (Z.of_nat n))%string v = 0%Q).
  { intros n [[x y] z] H N. destruct (A' n H) as (s & a & Ea & Sa). unfold file_value. rewrite Ea. destruct (Sa x y z) as [_ S0]. now apply S0. }
  intros v total. split.
  - intros (m & Hm & Hb). destruct (In_nth _ _ no_node Hm) as (k & Hk & <-).
    unfold total. rewrite (sum_one _ _ k Hk).
    + destruct (A' k Hk) as (s & a & Ea & Sa). unfold file_value. rewrite Ea. destruct v as [[x y] z]. destruct (Sa x y z) as [S1 _].
      cbn in *. now rewrite S1.
    + intros j Hj N. apply V0; [exact Hj|]. intros Hb'. apply N. destruct Hb as (x & Hx & Ex), Hb' as (y & Hy & Ey).
      assert (x = y) by lia. subst y. now apply (U j k x).
  - intros H. apply sum_none. intros j Hj. apply V0; [exact Hj|]. apply H. now apply nth_In.
Qed.
Print Assumptions C191_all.

(** ** C192 *)
Theorem C192_union : forall l indices d dummy reference prefix f,
  d <> TextDir -> (forall i, In i indices -> 0 <= i < Z.of_nat (List.length (w_nodes l))) ->
  let p := prefix_used reference l prefix in
  exists f', write_feature_basins_sum l indices d dummy reference prefix f = Done f' /\
    (exists s a, f' (p ++ "_fsum")%string = Some (s, a) /\
      s = w_atoms l ++ (if dummy then map (fun j => site_of (feature l j)) indices else []) /\
      only_in (fun b => exists i, In i indices /\ basin_of (feature l i) b) (data_used reference l) (w_labels l) a) /\
    (forall n, n <> (p ++ "_fsum")%string -> f' n = f n).
Proof.
  intros l indices d dummy reference prefix f D V p.
  destruct (sum_done l indices d dummy reference prefix f D V) as (a & E & Sa). eexists. split; [exact E|]. split.
  - eexists _, a. split; [apply write_same|]. split; [reflexivity|now apply shows_union].
  - intros n H. now apply write_other.
Qed.
Print Assumptions C192_union.

(** The union of types holds the features of these types. *)
Theorem C192_types : forall l types d dummy reference prefix f,
  d <> TextDir ->
  let p := prefix_used reference l prefix in
  exists f', write_features_by_type_sum l types d dummy reference prefix f = Done f' /\
    exists s a, f' (p ++ "_fsum")%string = Some (s, a) /\
      only_in (fun b => exists n, In n (w_nodes l) /\ In (r_type n) types /\ basin_of n b) (data_used reference l) (w_labels l) a.
Proof.
  intros l types d dummy reference prefix f D p.
  destruct (C192_union l (feature_indices_by_type l types) d dummy reference prefix f D (by_type_valid l types)) as (f' & E & (s & a & Ea & _ & Sa) & _).
  exists f'. split; [exact E|]. exists s, a. split; [exact Ea|]. intros i j k. destruct (Sa i j k) as [S1 S2]. split.
  - intros (n & Hn & T & B). apply S1. destruct (In_nth _ _ no_node Hn) as (x & Hx & En). exists (Z.of_nat x).
    rewrite Nat2Z.id, En. split; [|exact B]. apply in_by_type. unfold node_at. rewrite Nat2Z.id, En. split; [lia|exact T].
  - intros N. apply S2. intros (x & Hx & B). apply in_by_type in Hx as [Hx T]. apply N. exists (feature l x). split; [apply nth_In; lia|]. auto.
Qed.
Print Assumptions C192_types.

(** ** C193: one file per symbol, for the last of the types with that symbol. *)
Lemma type_basins l t data labels a : shows data labels (union_of l (feature_indices_by_type l [t])) a ->
  only_in (fun b => exists n, In n (w_nodes l) /\ r_type n = t /\ basin_of n b) data labels a.
Proof.
  intros H. apply shows_union in H. intros i j k. destruct (H i j k) as [S1 S2]. split.
  - intros (n & Hn & T & B). apply S1. destruct (In_nth _ _ no_node Hn) as (x & Hx & En). exists (Z.of_nat x).
    rewrite Nat2Z.id, En. split; [|exact B]. apply in_by_type. unfold node_at. rewrite Nat2Z.id, En. split; [lia|left; congruence].
  - intros N. apply S2. intros (x & Hx & B). apply in_by_type in Hx as [Hx [T|[]]]. apply N. exists (feature l x). split; [apply nth_In; lia|]. auto.
Qed.
Theorem C193_types : forall l before t after dummy reference prefix f,
  (forall u, In u after -> dummy_species u <> dummy_species t) ->
  let p := prefix_used reference l prefix in
  exists f', write_features_by_type l (before ++ t :: after) PathDir dummy reference prefix f = Done f' /\
    exists s a, f' (p ++ "_" ++ dummy_species t)%string = Some (s, a) /\
      only_in (fun b => exists n, In n (w_nodes l) /\ r_type n = t /\ basin_of n b) (w_reference l) (w_labels l) a.
Proof.
  intros l before t after dummy reference prefix f H p. unfold write_features_by_type.
  destruct (types_done l (before ++ t :: after) PathDir dummy p f eq_refl) as (f' & E & A & _). exists f'. split; [exact E|].
  destruct (A t t) as (a & Ea & Sa); [exists before, after; auto|]. eexists _, a. split; [exact Ea|]. now apply type_basins.
Qed.
Print Assumptions C193_types.
Theorem C193_frame : forall l types dummy reference prefix f n,
  let p := prefix_used reference l prefix in
  (forall t, In t types -> n <> (p ++ "_" ++ dummy_species t)%string /\ n <> ((p ++ "_" ++ dummy_species t) ++ "_fsum")%string) ->
  exists f', write_features_by_type l types PathDir dummy reference prefix f = Done f' /\ f' n = f n.
Proof.
  intros l types dummy reference prefix f n p H. destruct (types_done l types PathDir dummy p f eq_refl) as (f' & E & _ & B).
  exists f'. split; [exact E|]. now apply B.
Qed.
Print Assumptions C193_frame.

(** ** A small system: a bond in basin 0, a shallow bond in basin 1, an electride in basin 2, a vacuum voxel. *)
Definition ex_labels : arr3 Z := fun i _ _ => if i =? 3 then -1 else i.
Definition ex_labeler : labeler :=
  Labeler (fun i _ _ => inject_Z (10 + i)) (fun i _ _ => inject_Z (20 + i)) "ELFCAR" "CHGCAR"
    [RNode Covalent [0%nat] (0, 0, 0)%Q 1 1 [] []; RNode CovalentMetallic [1%nat] (1 # 4, 0, 0)%Q 1 1 [] []; RNode Electride [2%nat] (1 # 2, 0, 0)%Q 1 1 [] []]
    ex_labels [("Ca"%string, (0, 0, 0)%Q)].
Definition no_files : files := fun _ => None.
Definition row (f : files) (n : string) : option (list Q) := option_map (fun c => map (fun i => snd c i 0 0) [0; 1; 2; 3]) (f n).
Example C191_ex :
  match write_feature_basins ex_labeler [0; 2] NoDir true false None no_files with
  | Done f => row f "CHGCAR_f0" = Some [20; 0; 0; 0]%Q /\ row f "CHGCAR_f2" = Some [0; 0; 22; 0]%Q /\ row f "CHGCAR_f1" = None /\
      option_map (fun c => map fst (fst c)) (f "CHGCAR_f2"%string) = Some ["Ca"; "Z"; "E"]%string
  | _ => False
  end.
Proof. vm_compute. repeat split. Qed.
Example C191_all_ex :
  match write_all_features ex_labeler NoDir false true (Some "x"%string) no_files with
  | Done f => map (fun v => Qred (qsum (map (fun n => file_value f ("x" ++ "_f" ++ dec (Z.of_nat n))%string v) (seq 0 3)))) [(0, 0, 0); (1, 0, 0); (2, 0, 0); (3, 0, 0)]
      = [10; 11; 12; 0]%Q
  | _ => False
  end.
Proof. vm_compute. reflexivity. Qed.
Example C192_ex :
  match write_features_by_type_sum ex_labeler [Covalent; Electride] PathDir false false None no_files with
  | Done f => row f "CHGCAR_fsum" = Some [20; 0; 22; 0]%Q
  | _ => False
  end.
Proof. vm_compute. reflexivity. Qed.
Example C193_ex :
  match write_features_by_type ex_labeler [Covalent; Electride] PathDir false true None no_files with
  | Done f => row f "ELFCAR_Z" = Some [10; 0; 0; 0]%Q /\ row f "ELFCAR_E" = Some [0; 0; 12; 0]%Q /\ row f "ELFCAR_Z_fsum" = None
  | _ => False
  end.
Proof. vm_compute. repeat split. Qed.

(** ** C194: every type asked for is found in its file. *)
Definition types_kept : Prop := forall l types f f' t, In t types ->
  write_features_by_type l types PathDir false true None f = Done f' ->
  exists s a, f' (w_reference_prefix l ++ "_" ++ dummy_species t)%string = Some (s, a) /\
    forall i j k n, In n (w_nodes l) -> r_type n = t -> basin_of n (w_labels l i j k) -> a i j k = w_reference l i j k.
Theorem C194_shared_refuted : ~ types_kept.
Proof.
  intros K.
  destruct (write_features_by_type ex_labeler [Covalent; CovalentMetallic] PathDir false true None no_files) as [f'| |] eqn:E; try discriminate E.
  destruct (K ex_labeler [Covalent; CovalentMetallic] no_files f' Covalent (or_introl eq_refl) E) as (s & a & Ea & H).
  vm_compute in E. injection E as <-. vm_compute in Ea. injection Ea as _ Ea.
  specialize (H 0 0 0 (RNode Covalent [0%nat] (0, 0, 0)%Q 1 1 [] []) (or_introl eq_refl) eq_refl).
  assert (B : basin_of (RNode Covalent [0%nat] (0, 0, 0)%Q 1 1 [] []) (w_labels ex_labeler 0 0 0)) by (exists 0%nat; split; [now left|reflexivity]).
  specialize (H B). rewrite <- Ea in H. vm_compute in H. discriminate H.
Qed.
Print Assumptions C194_shared_refuted.

(** ** C195: the file named after the charge density holds the charge density. *)
Definition charge_written : Prop := forall l t f f',
  write_features_by_type l [t] PathDir false false None f = Done f' ->
  exists s a, f' (w_charge_prefix l ++ "_" ++ dummy_species t)%string = Some (s, a) /\
    forall i j k n, In n (w_nodes l) -> r_type n = t -> basin_of n (w_labels l i j k) -> a i j k = w_charge l i j k.
Theorem C195_charge_refuted : ~ charge_written.
Proof.
  intros K.
  destruct (write_features_by_type ex_labeler [Covalent] PathDir false false None no_files) as [f'| |] eqn:E; try discriminate E.
  destruct (K ex_labeler _ no_files f' E) as (s & a & Ea & H).
  vm_compute in E. injection E as <-. vm_compute in Ea. injection Ea as _ Ea.
  specialize (H 0 0 0 (RNode Covalent [0%nat] (0, 0, 0)%Q 1 1 [] []) (or_introl eq_refl) eq_refl).
  assert (B : basin_of (RNode Covalent [0%nat] (0, 0, 0)%Q 1 1 [] []) (w_labels ex_labeler 0 0 0)) by (exists 0%nat; split; [now left|reflexivity]).
  specialize (H B). rewrite <- Ea in H. vm_compute in H. discriminate H.
Qed.
Print Assumptions C195_charge_refuted.

(** ** C196: files of both spins *)
Definition spin_prefix_used (reference : bool) (s : spin_labeler) (prefix : option string) : string :=
  match prefix with Some p => p | None => if reference then s_reference_prefix s else s_charge_prefix s end.
Definition has_feature (f : files) (name : string) (l : labeler) (reference : bool) (i : Z) : Prop :=
  exists s a, f name = Some (s, a) /\ only_in (basin_of (feature l i)) (data_used reference l) (w_labels l) a.
Lemma has_feature_of f name l dummy reference i : feature_in f name l dummy reference i -> has_feature f name l reference i.
Proof. intros (a & E & Sa). eexists _, a. split; [exact E|now apply shows_one]. Qed.
Theorem C196_features : forall s d dummy reference prefix f,
  d <> TextDir ->
  let p := spin_prefix_used reference s prefix in
  exists f', spin_write_all_features s d dummy reference prefix f = Done f' /\
    (s_equal s = false ->
      (forall i, 0 <= i < Z.of_nat (List.length (w_nodes (s_up s))) -> has_feature f' (p ++ "_f" ++ dec i ++ "_up")%string (s_up s) reference i) /\
      (forall i, 0 <= i < Z.of_nat (List.length (w_nodes (s_down s))) -> has_feature f' (p ++ "_f" ++ dec i ++ "_down")%string (s_down s) reference i)) /\
    (s_equal s = true ->
      forall i, 0 <= i < Z.of_nat (List.length (w_nodes (s_up s))) -> has_feature f' (p ++ "_f" ++ dec i)%string (s_up s) reference i).
Proof.
  intros s d dummy reference prefix f D p.
  assert (N : forall i x, (p ++ "_f" ++ dec i ++ x)%string = (feature_file p i ++ x)%string) by (intros i x; unfold feature_file; now rewrite !sapp_assoc).
  destruct (s_equal s) eqn:Q.
  - destruct (all_equal s d dummy reference prefix f D Q) as (f' & E & A). exists f'. split; [exact E|]. split; [discriminate|].
    intros _ i H. apply (has_feature_of _ _ _ dummy), (A i H).
  - destruct (all_unequal s d dummy reference prefix f D Q) as (f' & E & A & B). exists f'. split; [exact E|]. split; [|discriminate].
    intros _. split; intros i H; rewrite N; apply (has_feature_of _ _ _ dummy); [exact (A i H)|exact (B i H)].
Qed.
Print Assumptions C196_features.

Definition has_types (f : files) (name : string) (l : labeler) (data : arr3 Q) (types : list ftype) : Prop :=
  exists s a, f name = Some (s, a) /\ only_in (fun b => exists n, In n (w_nodes l) /\ In (r_type n) types /\ basin_of n b) data (w_labels l) a.
Lemma has_types_of f name l data types st :
  (exists a, f name = Some (st, a) /\ shows data (w_labels l) (union_of l (feature_indices_by_type l types)) a) -> has_types f name l data types.
Proof.
  intros (a & E & Sa). eexists _, a. split; [exact E|]. apply shows_union in Sa. intros i j k. destruct (Sa i j k) as [S1 S2]. split.
  - intros (n & Hn & T & B). apply S1. destruct (In_nth _ _ no_node Hn) as (x & Hx & En). exists (Z.of_nat x).
    rewrite Nat2Z.id, En. split; [|exact B]. apply in_by_type. unfold node_at. rewrite Nat2Z.id, En. split; [lia|exact T].
  - intros N. apply S2. intros (x & Hx & B). apply in_by_type in Hx as [Hx T]. apply N. exists (feature l x). split; [apply nth_In; lia|]. auto.
Qed.
Theorem C196_types : forall s before t after d dummy reference prefix f,
  d <> TextDir -> s_equal s = false -> (forall u, In u after -> dummy_species u <> dummy_species t) ->
  let p := spin_prefix_used reference s prefix in
  exists f', spin_write_features_by_type s (before ++ t :: after) d dummy reference prefix f = Done f' /\
    has_types f' (p ++ "_" ++ dummy_species t ++ "_up")%string (s_up s) (w_reference (s_up s)) [t] /\
    has_types f' (p ++ "_" ++ dummy_species t ++ "_down")%string (s_down s) (w_reference (s_down s)) [t].
Proof.
  intros s before t after d dummy reference prefix f D Q H p.
  assert (N : forall x, (p ++ "_" ++ dummy_species t ++ x)%string = (type_prefix p t ++ x)%string) by (intros x; unfold type_prefix; now rewrite !sapp_assoc).
  unfold spin_write_features_by_type. rewrite Q, (resolve_path d D). cbn [temp_prefix].
  destruct (spin_types_done s (before ++ t :: after) dummy reference p f Q) as (f' & E & A & _). exists f'. split; [exact E|].
  destruct (A t t) as [U W]; [exists before, after; auto|]. rewrite !N. split; eapply has_types_of; [exact U|exact W].
Qed.
Print Assumptions C196_types.
Theorem C196_union : forall s types d dummy reference prefix f,
  d <> TextDir ->
  let p := spin_prefix_used reference s prefix in
  exists f', spin_write_features_by_type_sum s types d dummy reference prefix f = Done f' /\
    (s_equal s = false -> has_types f' (p ++ "_fsum" ++ "_up")%string (s_up s) (data_used reference (s_up s)) types /\
      has_types f' (p ++ "_fsum" ++ "_down")%string (s_down s) (data_used reference (s_down s)) types) /\
    (s_equal s = true -> has_types f' (p ++ "_fsum")%string (s_up s) (data_used reference (s_up s)) types).
Proof.
  intros s types d dummy reference prefix f D p.
  assert (N : forall x, (p ++ "_fsum" ++ x)%string = (union_file p ++ x)%string) by (intros x; unfold union_file; now rewrite !sapp_assoc).
  destruct (union_spin_done s types d dummy reference prefix f D) as (f' & E & A). exists f'. split; [exact E|].
  rewrite !N. destruct (s_equal s); (split; [intros Q; try discriminate Q|intros Q; try discriminate Q]).
  - eapply has_types_of. exact A.
  - destruct A as [A B]. split; eapply has_types_of; [exact A|exact B].
Qed.
Print Assumptions C196_union.

Definition ex_down : labeler :=
  Labeler (fun i _ _ => inject_Z (30 + i)) (fun i _ _ => inject_Z (40 + i)) "ELFCAR" "CHGCAR"
    [RNode Electride [0%nat; 1%nat] (0, 0, 0)%Q 1 1 [] []] ex_labels [("Ca"%string, (0, 0, 0)%Q)].
Definition ex_spin (equal : bool) : spin_labeler := SpinLabeler equal ex_labeler ex_down "ELFCAR" "CHGCAR".
Example C196_ex :
  match spin_write_all_features (ex_spin false) NoDir false true None no_files with
  | Done f => row f "ELFCAR_f1_up" = Some [0; 11; 0; 0]%Q /\ row f "ELFCAR_f0_down" = Some [30; 31; 0; 0]%Q /\ row f "ELFCAR_f1_down" = None /\ row f "ELFCAR_f0" = None
  | _ => False
  end /\
  match spin_write_features_by_type (ex_spin false) [Covalent; Electride] NoDir false true None no_files with
  | Done f => row f "ELFCAR_Z_up" = Some [10; 0; 0; 0]%Q /\ row f "ELFCAR_E_down" = Some [30; 31; 0; 0]%Q
  | _ => False
  end /\
  match spin_write_features_by_type_sum (ex_spin true) [Covalent; Electride] NoDir false false None no_files with
  | Done f => row f "CHGCAR_fsum" = Some [20; 0; 22; 0]%Q
  | _ => False
  end.
Proof. vm_compute. repeat split. Qed.

(** ** C197: equal spins are written for every type asked for. *)
Definition equal_types_written : Prop := forall s types d dummy reference prefix f f' t,
  s_equal s = true -> d <> TextDir -> In t types ->
  spin_write_features_by_type s types d dummy reference prefix f = Done f' ->
  f' (spin_prefix_used reference s prefix ++ "_" ++ dummy_species t)%string <> None.
Theorem C197_equal_refuted : ~ equal_types_written.
Proof.
  intros K.
  destruct (spin_write_features_by_type (ex_spin true) [Covalent; Electride] PathDir false true None no_files) as [f'| |] eqn:E; try discriminate E.
  apply (K (ex_spin true) [Covalent; Electride] PathDir false true None no_files f' Electride eq_refl ltac:(discriminate) ltac:(cbn; auto) E). vm_compute in E. injection E as <-. reflexivity.
Qed.
Print Assumptions C197_equal_refuted.
(** What is written instead. *)
Theorem C197_first : forall s t rest d dummy reference prefix f,
  s_equal s = true -> d <> TextDir ->
  let p := spin_prefix_used reference s prefix in
  exists f', spin_write_features_by_type s (t :: rest) d dummy reference prefix f = Done f' /\
    has_types f' (p ++ "_" ++ dummy_species t)%string (s_up s) (w_reference (s_up s)) [t] /\
    forall n, n <> (p ++ "_" ++ dummy_species t)%string -> n <> ((p ++ "_temp") ++ "_" ++ dummy_species t)%string ->
      n <> (((p ++ "_temp") ++ "_" ++ dummy_species t) ++ "_fsum")%string -> f' n = f n.
Proof.
  intros s t rest d dummy reference prefix f Q D p. unfold spin_write_features_by_type. rewrite Q, (resolve_path d D). cbn [temp_prefix].
  destruct (spin_equal_types s t rest dummy reference p f Q) as (f' & E & A & B). exists f'. split; [exact E|]. split; [|exact B].
  eapply has_types_of. exact A.
Qed.
Print Assumptions C197_first.

(** ** C198: atoms of both spins *)
Definition atom_prefix_used (reference : bool) (s : spin_parts) (prefix : option string) : string :=
  match prefix with Some p => p | None => if reference then sp_reference_prefix s else sp_charge_prefix s end.
Definition has_rest (f : files) (name : string) (p : parts) (dummy reference : bool) (i : Z) : Prop :=
  exists a, f name = Some (if dummy then p_sites p else p_atoms p, a) /\
    forall x y z, (p_labels p x y z = i -> a x y z = 0%Q) /\ (p_labels p x y z <> i -> a x y z = if reference then p_reference p x y z else p_charge p x y z).
Lemma has_rest_of f name p dummy reference i : atom_in f name p dummy reference i -> has_rest f name p dummy reference i.
Proof.
  intros (a & E & W). exists a. split; [exact E|]. intros x y z. destruct (W x y z) as [A B]. split; [exact A|].
  intros H. rewrite (B H). unfold part_data. now destruct reference.
Qed.
Theorem C198_atoms : forall s indices d dummy reference prefix f,
  d <> TextDir -> sp_equal s = false ->
  let p := atom_prefix_used reference s prefix in
  exists f', spin_write_atom_volumes s indices d dummy reference prefix f = Done f' /\
    forall i, In i indices -> has_rest f' (p ++ "_a" ++ dec i ++ "_up")%string (sp_up s) dummy reference i /\
      has_rest f' (p ++ "_a" ++ dec i ++ "_down")%string (sp_down s) dummy reference i.
Proof.
  intros s indices d dummy reference prefix f D Q p.
  assert (N : forall i x, (p ++ "_a" ++ dec i ++ x)%string = (atom_file p i ++ x)%string) by (intros i x; unfold atom_file; now rewrite !sapp_assoc).
  unfold spin_write_atom_volumes. rewrite Q, (resolve_path d D). cbn [temp_prefix].
  destruct (spin_atoms_done s indices dummy reference p f Q) as (f' & E & A & _). exists f'. split; [exact E|].
  intros i H. rewrite !N. destruct (A i H) as [U W]. split; now apply has_rest_of.
Qed.
Print Assumptions C198_atoms.
Theorem C198_all : forall s d dummy reference prefix f,
  d <> TextDir -> sp_equal s = false ->
  let p := atom_prefix_used reference s prefix in
  exists f', spin_write_all_atom_volumes s d dummy reference prefix f = Done f' /\
    forall i, 0 <= i < Z.of_nat (List.length (sp_sites s)) -> has_rest f' (p ++ "_a" ++ dec i ++ "_up")%string (sp_up s) dummy reference i /\
      has_rest f' (p ++ "_a" ++ dec i ++ "_down")%string (sp_down s) dummy reference i.
Proof.
  intros s d dummy reference prefix f D Q p. unfold spin_write_all_atom_volumes.
  destruct (C198_atoms s (map Z.of_nat (seq 0 (List.length (sp_sites s)))) d dummy reference prefix f D Q) as (f' & E & A). exists f'. split; [exact E|].
  intros i H. apply A. apply in_map_iff. exists (Z.to_nat i). split; [lia|]. apply in_seq. lia.
Qed.
Print Assumptions C198_all.
Definition ex_parts (base : Z) : parts :=
  Parts (fun i _ _ => inject_Z (base + i)) (fun i _ _ => inject_Z (base + 50 + i)) (fun i _ _ => i) [("Ca"%string, (0, 0, 0)%Q)] [("Ca"%string, (0, 0, 0)%Q); ("E"%string, (1 # 2, 0, 0)%Q)].
Definition ex_spin_parts (equal : bool) : spin_parts := SpinParts equal (ex_parts 10) (ex_parts 30) "ELFCAR" "CHGCAR" [("Ca"%string, (0, 0, 0)%Q); ("E"%string, (1 # 2, 0, 0)%Q)].
Example C198_ex :
  match spin_write_all_atom_volumes (ex_spin_parts false) NoDir true true None no_files with
  | Done f => row f "ELFCAR_a1_up" = Some [10; 0; 12; 13]%Q /\ row f "ELFCAR_a0_down" = Some [0; 31; 32; 33]%Q /\ row f "ELFCAR_a1" = None
  | _ => False
  end.
Proof. vm_compute. repeat split. Qed.

(** ** C199: the atoms of equal spins are written under the prefix. *)
Definition equal_atoms_named : Prop := forall s indices d dummy reference prefix f f' i,
  d <> TextDir -> sp_equal s = true -> In i indices ->
  spin_write_atom_volumes s indices d dummy reference prefix f = Done f' ->
  f' (atom_prefix_used reference s prefix ++ "_a" ++ dec i)%string <> None.
Theorem C199_named_refuted : ~ equal_atoms_named.
Proof.
  intros K.
  destruct (spin_write_atom_volumes (ex_spin_parts true) [0] PathDir false true None no_files) as [f'| |] eqn:E; try discriminate E.
  apply (K (ex_spin_parts true) [0] PathDir false true None no_files f' 0 ltac:(discriminate) eq_refl ltac:(cbn; auto) E). vm_compute in E. injection E as <-. reflexivity.
Qed.
Print Assumptions C199_named_refuted.
(** They keep the temporary name. *)
Theorem C199_temporary : forall s indices d dummy reference prefix f,
  d <> TextDir -> sp_equal s = true ->
  let p := atom_prefix_used reference s prefix in
  exists f', spin_write_atom_volumes s indices d dummy reference prefix f = Done f' /\
    (forall i, In i indices -> has_rest f' ((p ++ "_temp") ++ "_a" ++ dec i)%string (sp_up s) dummy reference i) /\
    (forall n, (forall i, In i indices -> n <> ((p ++ "_temp") ++ "_a" ++ dec i)%string) -> f' n = f n).
Proof.
  intros s indices d dummy reference prefix f D Q p. unfold spin_write_atom_volumes. rewrite Q, (resolve_path d D). cbn [temp_prefix].
  destruct (spin_atoms_equal s indices dummy reference (p ++ "_temp") p f Q) as (f' & E & A & B). exists f'. split; [exact E|]. split.
  - intros i H. now apply has_rest_of, A.
  - intros n H. apply B. intros I. apply in_map_iff in I as (i & En & Hi). exact (H i Hi (eq_sym En)).
Qed.
Print Assumptions C199_temporary.

(** ** C200: writing both spins leaves the files of the whole density alone. *)
Definition others_kept : Prop := forall s d dummy reference prefix f f' n,
  s_equal s = false -> d <> TextDir ->
  spin_write_all_features s d dummy reference prefix f = Done f' ->
  (forall i, n <> (spin_prefix_used reference s prefix ++ "_f" ++ dec i ++ "_up")%string /\
    n <> (spin_prefix_used reference s prefix ++ "_f" ++ dec i ++ "_down")%string) -> f' n = f n.
Theorem C200_removed_refuted : ~ others_kept.
Proof.
  intros K. pose (f0 := write "ELFCAR_f0" ([], fun _ _ _ => 7%Q) no_files).
  destruct (spin_write_all_features (ex_spin false) PathDir false true None f0) as [f'| |] eqn:E; try discriminate E.
  specialize (K (ex_spin false) PathDir false true None f0 f' "ELFCAR_f0"%string eq_refl ltac:(discriminate) E).
  assert (A : f' "ELFCAR_f0"%string = None) by (vm_compute in E; injection E as <-; reflexivity).
  rewrite A in K. discriminate K. intros i. split; cbn; intros E1; injection E1 as E1.
  - apply (tail_none (str 0) (str i) "up"); try apply plain_str. exact E1.
  - apply (tail_none (str 0) (str i) "down"); try apply plain_str. exact E1.
Qed.
Print Assumptions C200_removed_refuted.

(** ** C201: a directory may be given as text. *)
Definition text_accepted : Prop := forall l indices dummy reference prefix f,
  (forall i, In i indices -> 0 <= i < Z.of_nat (List.length (w_nodes l))) ->
  write_feature_basins l indices TextDir dummy reference prefix f <> Raised.
Theorem C201_text_refuted : ~ text_accepted.
Proof.
  intros K. apply (K ex_labeler [0] false true None no_files); [|reflexivity]. intros i [<-|[]]. cbn. lia.
Qed.
Print Assumptions C201_text_refuted.
