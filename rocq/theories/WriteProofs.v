(** Files of features and atoms: proofs. *)
From Coq Require Import QArith String Ascii DecimalString DecimalFacts DecimalZ Lia.
From Verif Require Import Base RootsModel UnionModel GridModel ChargeModel LabelsModel NearModel SurfaceModel MarkModel ReportModel WriteModel.
Local Open Scope Z_scope.

(** ** Names *)
Lemma sapp_inj p a b : (p ++ a)%string = (p ++ b)%string -> a = b.
Proof. induction p as [|c p IH]; cbn; [trivial|]. intros E. injection E as E. auto. Qed.
Lemma sapp_assoc a b c : ((a ++ b) ++ c)%string = (a ++ b ++ c)%string.
Proof. induction a as [|x a IH]; cbn; [reflexivity|now rewrite IH]. Qed.
Lemma slen_app a b : String.length (a ++ b) = (String.length a + String.length b)%nat.
Proof. induction a as [|x a IH]; cbn; [reflexivity|now rewrite IH]. Qed.
Lemma sapp_inj_r a b s : (a ++ s)%string = (b ++ s)%string -> a = b.
Proof.
  revert b. induction a as [|x a IH]; intros [|y b] E; cbn in E; trivial.
  - apply (f_equal String.length) in E. cbn in E. rewrite slen_app in E. lia.
  - apply (f_equal String.length) in E. cbn in E. rewrite slen_app in E. lia.
  - injection E as -> E. f_equal. auto.
Qed.
(** The strings that have no underscore. *)
Fixpoint plain (s : string) : Prop := match s with EmptyString => True | String c t => c <> "_"%char /\ plain t end.
Lemma plain_app a b : plain (a ++ b)%string <-> plain a /\ plain b.
Proof. induction a as [|c a IH]; cbn; [tauto|]. rewrite IH. tauto. Qed.
Lemma plain_uint u : plain (NilEmpty.string_of_uint u).
Proof. induction u; cbn; try exact Logic.I; split; trivial; discriminate. Qed.
Lemma plain_str i : plain (str i).
Proof.
  unfold str. unfold NilZero.string_of_int, NilZero.string_of_uint.
  destruct (Z.to_int i) as [u|u].
  - destruct u; try (apply plain_uint); cbn; split; [discriminate|exact Logic.I].
  - cbn. split; [discriminate|]. destruct u; try (apply plain_uint); cbn; split; [discriminate|exact Logic.I].
Qed.
Lemma str_inj i j : str i = str j -> i = j.
Proof.
  intros E. unfold str in E.
  assert (R : forall z, NilZero.int_of_string (NilZero.string_of_int (Z.to_int z)) = Some (Z.to_int z)).
  { intros z. apply NilZero.isi.
    - destruct z; cbn; try discriminate. intros E1. injection E1 as E1. now apply (DecimalPos.Unsigned.to_uint_nonnil p).
    - destruct z; cbn; try discriminate. intros E1. injection E1 as E1. now apply (DecimalPos.Unsigned.to_uint_nonnil p). }
  pose proof (R i) as Ri. pose proof (R j) as Rj. rewrite E in Ri. rewrite Ri in Rj. injection Rj as Rj.
  now apply DecimalZ.to_int_inj.
Qed.
Lemma feature_file_inj p i j : feature_file p i = feature_file p j -> i = j.
Proof. unfold feature_file. intros E. apply sapp_inj, sapp_inj in E. now apply str_inj. Qed.
Lemma atom_file_inj p i j : atom_file p i = atom_file p j -> i = j.
Proof. unfold atom_file. intros E. apply sapp_inj, sapp_inj in E. now apply str_inj. Qed.
(** An underscore after the index. *)
Lemma tail_split a b s t : plain a -> plain b -> (a ++ String "_" s)%string = (b ++ String "_" t)%string -> a = b /\ s = t.
Proof.
  revert b. induction a as [|x a IH]; intros [|y b] Pa Pb E; cbn in E.
  - injection E as E. auto.
  - injection E as E1 _. cbn in Pb. destruct Pb as [Pb _]. congruence.
  - injection E as E1 _. cbn in Pa. destruct Pa as [Pa _]. congruence.
  - injection E as -> E. cbn in Pa, Pb. destruct (IH b) as [-> ->]; tauto.
Qed.
Lemma tail_none a b s : plain a -> plain b -> a <> (b ++ String "_" s)%string.
Proof. intros Pa _ E. subst a. apply plain_app in Pa as [_ Pa]. cbn in Pa. tauto. Qed.
Lemma plain_species t : plain (dummy_species t).
Proof. destruct t; cbn; repeat split; discriminate. Qed.

(** ** Files *)
Lemma write_same n c f : write n c f n = Some c.
Proof. unfold write. now rewrite String.eqb_refl. Qed.
Lemma write_other n m c f : m <> n -> write n c f m = f m.
Proof. intros H. unfold write. now rewrite (proj2 (String.eqb_neq m n) H). Qed.
Lemma rename_done a b f c : f a = Some c ->
  exists f', rename a b f = Done f' /\ f' b = Some c /\ (a <> b -> f' a = None) /\ (forall n, n <> a -> n <> b -> f' n = f n).
Proof.
  intros E. unfold rename. rewrite E. eexists. split; [reflexivity|]. repeat split.
  - now rewrite String.eqb_refl.
  - intros H. rewrite (proj2 (String.eqb_neq a b) H), String.eqb_refl. reflexivity.
  - intros n H1 H2. now rewrite (proj2 (String.eqb_neq n b) H2), (proj2 (String.eqb_neq n a) H1).
Qed.

(** ** Contents *)
Definition shows (data : arr3 Q) (labels : arr3 Z) (basins : list Z) (a : arr3 Q) : Prop :=
  forall i j k, (In (labels i j k) basins -> a i j k = data i j k) /\ (~ In (labels i j k) basins -> a i j k = 0%Q).
Lemma np_isin_in l x : np_isin l x = true <-> In x l.
Proof.
  unfold np_isin. rewrite existsb_exists. split.
  - intros (y & H & E). apply Z.eqb_eq in E. now subst y.
  - intros H. exists x. split; [exact H|apply Z.eqb_refl].
Qed.
Lemma masked_shows data labels basins : shows data labels basins (masked data labels basins).
Proof.
  intros i j k. unfold masked. destruct (np_isin basins (labels i j k)) eqn:E; cbn; split; intros H; trivial.
  - destruct H. now apply np_isin_in.
  - apply np_isin_in in H. congruence.
Qed.

Definition node_at (l : labeler) (i : Z) : rnode := nth (Z.to_nat i) (w_nodes l) no_node.
Definition valid (l : labeler) (indices : list Z) : Prop := forall i, In i indices -> 0 <= i < Z.of_nat (List.length (w_nodes l)).
Definition structure_for (dummy : bool) (l : labeler) (indices : list Z) : list (string * vec) :=
  w_atoms l ++ (if dummy then map (fun i => site_of (node_at l i)) indices else []).
Lemma get_valid l indices i : valid l indices -> In i indices -> oget (np_get (w_nodes l) i) = Done (node_at l i).
Proof.
  intros V H. specialize (V i H). unfold np_get, np_idx.
  rewrite (proj2 (Z.leb_le 0 i) ltac:(lia)), (proj2 (Z.ltb_lt _ _) (proj2 V)). cbn [andb].
  unfold node_at. rewrite (nth_error_nth' _ no_node) by lia. reflexivity.
Qed.
Lemma valid_tail l i t : valid l (i :: t) -> valid l t.
Proof. intros V j H. apply V. now right. Qed.
Lemma append_features_done l indices s : valid l indices ->
  append_features l indices s = Done (s ++ map (fun i => site_of (node_at l i)) indices).
Proof.
  revert s. induction indices as [|i t IH]; intros s V; cbn; [now rewrite app_nil_r|].
  rewrite (get_valid l (i :: t)) by (trivial; now left). cbn. rewrite IH by now apply valid_tail in V. now rewrite <- app_assoc.
Qed.
Lemma structure_done dummy l indices : valid l indices -> structure_of dummy l indices = Done (structure_for dummy l indices).
Proof.
  intros V. unfold structure_of, structure_for. destruct dummy; [now apply append_features_done|now rewrite app_nil_r].
Qed.
Lemma collect_done l indices acc : valid l indices ->
  collect_basins l indices acc = Done (acc ++ flat_map (fun i => basins_of (node_at l i)) indices).
Proof.
  revert acc. induction indices as [|i t IH]; intros s V; cbn; [now rewrite app_nil_r|].
  rewrite (get_valid l (i :: t)) by (trivial; now left). cbn. rewrite IH by now apply valid_tail in V. now rewrite <- app_assoc.
Qed.
Lemma resolve_joined d : d <> TextDir -> joined (resolve d) = Done tt.
Proof. now destruct d. Qed.
Lemma resolve_path d : d <> TextDir -> resolve d = PathDir.
Proof. now destruct d. Qed.

Lemma each_done l s data prefix indices f : valid l indices ->
  exists f', write_each l PathDir s data prefix indices f = Done f' /\
    (forall i, In i indices -> exists a, f' (feature_file prefix i) = Some (s, a) /\ shows data (w_labels l) (basins_of (node_at l i)) a) /\
    (forall n, ~ In n (map (feature_file prefix) indices) -> f' n = f n).
Proof.
  revert f. induction indices as [|i t IH]; intros f V; cbn [write_each].
  - exists f. split; [reflexivity|]. split; [intros i []|trivial].
  - rewrite (get_valid l (i :: t)) by (trivial; now left). cbn [obind joined].
    destruct (IH (write (feature_file prefix i) (s, masked data (w_labels l) (basins_of (node_at l i))) f) (valid_tail _ _ _ V)) as (f' & E & A & B).
    exists f'. split; [exact E|]. split.
    + intros j [<-|H]; [|now apply A].
      destruct (in_dec String.string_dec (feature_file prefix i) (map (feature_file prefix) t)) as [H|H].
      * apply in_map_iff in H as (k & E1 & H). apply feature_file_inj in E1. subst k. now apply A.
      * rewrite (B _ H), write_same. eexists. split; [reflexivity|apply masked_shows].
    + intros n H. cbn [map In] in H. rewrite (B n) by tauto. apply write_other. intros ->. apply H. now left.
Qed.
Lemma basins_done l indices d dummy reference prefix f : d <> TextDir -> valid l indices ->
  exists f', write_feature_basins l indices d dummy reference prefix f = Done f' /\
    (forall i, In i indices -> exists a, f' (feature_file (or_default prefix (prefix_of reference l)) i) = Some (structure_for dummy l indices, a) /\
      shows (data_of reference l) (w_labels l) (basins_of (node_at l i)) a) /\
    (forall n, ~ In n (map (feature_file (or_default prefix (prefix_of reference l))) indices) -> f' n = f n).
Proof.
  intros D V. unfold write_feature_basins. rewrite (structure_done _ _ _ V). cbn [obind]. rewrite (resolve_path d D). now apply each_done.
Qed.
Definition union_of (l : labeler) (indices : list Z) : list Z := flat_map (fun i => basins_of (node_at l i)) indices.
Lemma sum_done l indices d dummy reference prefix f : d <> TextDir -> valid l indices ->
  exists a, write_feature_basins_sum l indices d dummy reference prefix f =
    Done (write (union_file (or_default prefix (prefix_of reference l))) (structure_for dummy l indices, a) f) /\
    shows (data_of reference l) (w_labels l) (union_of l indices) a.
Proof.
  intros D V. unfold write_feature_basins_sum. rewrite (structure_done _ _ _ V), (collect_done _ _ _ V), (resolve_joined d D). cbn [obind].
  eexists. split; [reflexivity|]. cbn [app]. apply masked_shows.
Qed.

(** ** Types *)
Lemma by_type_valid l types : valid l (feature_indices_by_type l types).
Proof.
  intros i H. unfold feature_indices_by_type in H. apply in_map_iff in H as ([k n] & <- & H). cbn.
  apply filter_In in H as [H _]. apply in_combine_l, in_seq in H. lia.
Qed.
Lemma in_combine_nodes (nodes : list rnode) b k n : In (k, n) (combine (seq b (List.length nodes)) nodes) <->
  (b <= k < b + List.length nodes)%nat /\ nth (k - b) nodes no_node = n.
Proof.
  revert b. induction nodes as [|m t IH]; intros b; cbn [List.length seq combine In].
  - split; [intros []|lia].
  - rewrite IH. split.
    + intros [E|[H E]]; [injection E as <- <-; split; [lia|now rewrite Nat.sub_diag]|].
      split; [lia|]. replace (k - b)%nat with (S (k - S b)) by lia. exact E.
    + intros [H E]. destruct (Nat.eq_dec k b) as [->|N].
      * left. rewrite Nat.sub_diag in E. cbn in E. now subst m.
      * right. split; [lia|]. replace (k - b)%nat with (S (k - S b)) in E by lia. exact E.
Qed.
Lemma ftype_eqb_true a b : ftype_eqb a b = true <-> a = b.
Proof. destruct a, b; cbn; split; intros H; try discriminate; reflexivity. Qed.
Lemma type_in_In t l : type_in t l = true <-> In t l.
Proof.
  unfold type_in. rewrite existsb_exists. split.
  - intros (y & H & E). apply ftype_eqb_true in E. now subst y.
  - intros H. exists t. split; [exact H|now apply ftype_eqb_true].
Qed.
Lemma in_by_type l types i : In i (feature_indices_by_type l types) <->
  0 <= i < Z.of_nat (List.length (w_nodes l)) /\ In (r_type (node_at l i)) types.
Proof.
  unfold feature_indices_by_type. rewrite in_map_iff. split.
  - intros ([k n] & <- & H). cbn. apply filter_In in H as [H T]. cbn in T. apply in_combine_nodes in H as [H E].
    rewrite Nat.sub_0_r in E. unfold node_at. rewrite Nat2Z.id, E. split; [lia|now apply type_in_In].
  - intros [H T]. exists (Z.to_nat i, node_at l i). cbn. split; [lia|]. apply filter_In. split.
    + apply in_combine_nodes. split; [lia|]. now rewrite Nat.sub_0_r.
    + cbn. now apply type_in_In.
Qed.
Lemma type_prefix_inj p t u : type_prefix p t = type_prefix p u -> dummy_species t = dummy_species u.
Proof. unfold type_prefix. intros E. now apply sapp_inj, sapp_inj in E. Qed.
Lemma union_not_prefix p t u : union_file (type_prefix p t) <> type_prefix p u.
Proof.
  unfold union_file, type_prefix. rewrite !sapp_assoc. intros E. apply sapp_inj, sapp_inj in E.
  now apply (tail_none (dummy_species u) (dummy_species t) "fsum" (plain_species _) (plain_species _)).
Qed.

(** The last of [types] with the symbol of [t]. *)
Definition last_with (types : list ftype) (t u : ftype) : Prop :=
  exists before after, types = before ++ u :: after /\ dummy_species u = dummy_species t /\
    forall v, In v after -> dummy_species v <> dummy_species t.
Lemma last_with_dec types t : (exists u, last_with types t u) \/ (forall v, In v types -> dummy_species v <> dummy_species t).
Proof.
  induction types as [|a r IH]; [right; intros v []|].
  destruct IH as [(u & b & c & -> & E & H)|H].
  - left. exists u, (a :: b), c. auto.
  - destruct (String.string_dec (dummy_species a) (dummy_species t)) as [E|E].
    + left. exists a, [], r. auto.
    + right. intros v [<-|I]; auto.
Qed.
Lemma types_done l types d dummy prefix f : d = PathDir ->
  exists f', write_types l types d dummy prefix f = Done f' /\
    (forall t u, last_with types t u -> exists a, f' (type_prefix prefix t) = Some (structure_for dummy l (feature_indices_by_type l [u]), a) /\
      shows (w_reference l) (w_labels l) (union_of l (feature_indices_by_type l [u])) a) /\
    (forall n, (forall t, In t types -> n <> type_prefix prefix t /\ n <> union_file (type_prefix prefix t)) -> f' n = f n).
Proof.
  intros ->. revert f. induction types as [|t r IH]; intros f; cbn [write_types].
  - exists f. split; [reflexivity|]. split; [|trivial]. intros t u (b & c & E & _). now destruct b.
  - destruct (sum_done l (feature_indices_by_type l [t]) PathDir dummy true (Some (type_prefix prefix t)) f ltac:(discriminate) (by_type_valid _ _)) as (a & E & S).
    rewrite E. cbn [obind or_default joined].
    destruct (rename_done (union_file (type_prefix prefix t)) (type_prefix prefix t)
      (write (union_file (type_prefix prefix t)) (structure_for dummy l (feature_indices_by_type l [t]), a) f) _ (write_same _ _ _)) as (f2 & E2 & A2 & _ & B2).
    rewrite E2. cbn [obind]. destruct (IH f2) as (f' & E' & A' & B'). exists f'. split; [exact E'|]. split.
    + intros x u (b & c & E1 & ES & H). destruct b as [|y b]; cbn in E1; injection E1 as E1 E3.
      * subst u c.
        assert (N : type_prefix prefix x = type_prefix prefix t) by (unfold type_prefix; now rewrite ES).
        rewrite N. rewrite B'; [rewrite A2; eexists; split; [reflexivity|exact S]|].
        intros v Hv. split; [|now apply not_eq_sym, union_not_prefix].
        intros E3. apply type_prefix_inj in E3. apply (H v Hv). congruence.
      * apply A'. exists b, c. auto.
    + intros n H. rewrite B' by (intros v Hv; apply H; now right).
      destruct (H t (or_introl eq_refl)) as [H1 H2]. rewrite B2 by assumption. now apply write_other.
Qed.

(** ** Both spins *)
Lemma final_inj p s i j : (feature_file p i ++ s)%string = (feature_file p j ++ s)%string -> i = j.
Proof. intros E. apply sapp_inj_r in E. now apply feature_file_inj in E. Qed.
Lemma spin_done l dummy reference temp prefix suffix indices f :
  valid l indices -> (forall i j, feature_file temp i <> (feature_file prefix j ++ suffix)%string) ->
  exists f', write_spin l PathDir dummy reference temp prefix suffix indices f = Done f' /\
    (forall i, In i indices -> exists a, f' (feature_file prefix i ++ suffix)%string = Some (structure_for dummy l [i], a) /\
      shows (data_of reference l) (w_labels l) (basins_of (node_at l i)) a) /\
    (forall i, In i indices -> f' (feature_file temp i) = None) /\
    (forall n, (forall i, In i indices -> n <> feature_file temp i /\ n <> (feature_file prefix i ++ suffix)%string) -> f' n = f n).
Proof.
  intros V0 NE. revert f V0. induction indices as [|i t IH]; intros f V; cbn [write_spin].
  - exists f. split; [reflexivity|]. split; [intros i []|]. split; [intros i []|trivial].
  - assert (V1 : valid l [i]) by (intros j [<-|[]]; apply V; now left).
    destruct (basins_done l [i] PathDir dummy reference (Some temp) f ltac:(discriminate) V1) as (f1 & E1 & A1 & B1).
    rewrite E1. cbn [obind joined]. cbn [or_default] in *.
    destruct (A1 i (or_introl eq_refl)) as (a & Ea & Sa).
    destruct (rename_done (feature_file temp i) (feature_file prefix i ++ suffix) f1 _ Ea) as (f2 & E2 & A2 & R2 & B2).
    rewrite E2. cbn [obind]. destruct (IH f2 (valid_tail _ _ _ V)) as (f' & E' & A' & R' & B'). exists f'. split; [exact E'|].
    split; [|split].
    + intros j [<-|H]; [|now apply A'].
      destruct (in_dec Z.eq_dec i t) as [H|H]; [now apply A'|].
      rewrite B'; [rewrite A2; eexists; split; [reflexivity|exact Sa]|].
      intros j Hj. split; [apply not_eq_sym, NE|]. intros E. apply final_inj in E. now subst j.
    + intros j [<-|H]; [|now apply R'].
      destruct (in_dec Z.eq_dec i t) as [H|H]; [now apply R'|].
      rewrite B'; [apply R2, NE|].
      intros j Hj. split; [|apply NE]. intros E. apply feature_file_inj in E. now subst j.
    + intros n H. rewrite B' by (intros v Hv; apply H; now right).
      destruct (H i (or_introl eq_refl)) as [H1 H2]. rewrite B2 by assumption. apply B1. intros [E|[]]. now apply H1.
Qed.
Lemma spun_names p s i j : feature_file p i <> (feature_file p j ++ String "_" s)%string.
Proof.
  unfold feature_file. rewrite !sapp_assoc. intros E. apply sapp_inj, sapp_inj in E.
  now apply (tail_none (str i) (str j) s (plain_str i) (plain_str j)).
Qed.
Lemma temp_names p i j : feature_file (p ++ "_temp") i <> (feature_file p j ++ "")%string.
Proof. unfold feature_file. rewrite !sapp_assoc. intros E. apply sapp_inj in E. discriminate E. Qed.
Lemma up_not_down p i j : (feature_file p i ++ "_up")%string <> (feature_file p j ++ "_down")%string.
Proof.
  unfold feature_file. rewrite !sapp_assoc. intros E. apply sapp_inj, sapp_inj in E.
  apply (tail_split (str i) (str j) "up" "down" (plain_str i) (plain_str j)) in E as [_ E]. discriminate E.
Qed.
Lemma all_valid l : valid l (all_indices l).
Proof. intros i H. unfold all_indices in H. apply in_map_iff in H as (k & <- & H). apply in_seq in H. lia. Qed.
Lemma in_all l i : In i (all_indices l) <-> 0 <= i < Z.of_nat (List.length (w_nodes l)).
Proof.
  split; [apply all_valid|]. intros H. unfold all_indices. apply in_map_iff. exists (Z.to_nat i). split; [lia|]. apply in_seq. lia.
Qed.

Definition feature_in (f : files) (name : string) (l : labeler) (dummy reference : bool) (i : Z) : Prop :=
  exists a, f name = Some (structure_for dummy l [i], a) /\ shows (data_of reference l) (w_labels l) (basins_of (node_at l i)) a.

Lemma all_unequal s d dummy reference prefix f : d <> TextDir -> s_equal s = false ->
  let p := spin_prefix reference s prefix in
  exists f', spin_write_all_features s d dummy reference prefix f = Done f' /\
    (forall i, 0 <= i < Z.of_nat (List.length (w_nodes (s_up s))) -> feature_in f' (feature_file p i ++ "_up") (s_up s) dummy reference i) /\
    (forall i, 0 <= i < Z.of_nat (List.length (w_nodes (s_down s))) -> feature_in f' (feature_file p i ++ "_down") (s_down s) dummy reference i).
Proof.
  intros D E p. unfold spin_write_all_features. rewrite E, (resolve_path d D). cbn [temp_prefix]. fold p.
  destruct (spin_done (s_up s) dummy reference p p "_up" (all_indices (s_up s)) f (all_valid _) (spun_names p "up")) as (f1 & E1 & A1 & R1 & B1).
  rewrite E1. cbn [obind].
  destruct (spin_done (s_down s) dummy reference p p "_down" (all_indices (s_down s)) f1 (all_valid _) (spun_names p "down")) as (f2 & E2 & A2 & R2 & B2).
  rewrite E2. exists f2. split; [reflexivity|]. split.
  - intros i H. apply in_all in H. destruct (A1 i H) as (a & Ha & Sa). exists a. split; [|exact Sa]. rewrite <- Ha. apply B2.
    intros j _. split; [apply not_eq_sym, spun_names|apply up_not_down].
  - intros i H. apply in_all in H. now apply A2.
Qed.
Lemma all_equal s d dummy reference prefix f : d <> TextDir -> s_equal s = true ->
  let p := spin_prefix reference s prefix in
  exists f', spin_write_all_features s d dummy reference prefix f = Done f' /\
    (forall i, 0 <= i < Z.of_nat (List.length (w_nodes (s_up s))) -> feature_in f' (feature_file p i) (s_up s) dummy reference i).
Proof.
  intros D E p. unfold spin_write_all_features. rewrite E, (resolve_path d D). cbn [temp_prefix]. fold p.
  destruct (spin_done (s_up s) dummy reference (p ++ "_temp") p "" (all_indices (s_up s)) f (all_valid _) (temp_names p)) as (f1 & E1 & A1 & R1 & B1).
  rewrite E1. exists f1. split; [reflexivity|]. intros i H. apply in_all in H. specialize (A1 i H).
  replace (feature_file p i ++ "")%string with (feature_file p i) in A1; [exact A1|].
  clear. induction (feature_file p i) as [|c t IH]; cbn; [reflexivity|now rewrite <- IH].
Qed.

(** Types. *)
Definition type_in_file (f : files) (name : string) (l : labeler) (dummy : bool) (types : list ftype) : Prop :=
  exists a, f name = Some (structure_for dummy l (feature_indices_by_type l types), a) /\
    shows (w_reference l) (w_labels l) (union_of l (feature_indices_by_type l types)) a.
Lemma one_type l t d dummy reference p f : d = PathDir ->
  exists f', write_features_by_type l [t] d dummy reference (Some p) f = Done f' /\ type_in_file f' (type_prefix p t) l dummy [t] /\
    (forall n, n <> type_prefix p t -> n <> union_file (type_prefix p t) -> f' n = f n).
Proof.
  intros D. unfold write_features_by_type. cbn [or_default]. destruct (types_done l [t] d dummy p f D) as (f' & E & A & B).
  exists f'. split; [exact E|]. split.
  - destruct (A t t) as (a & Ha & Sa); [exists [], []; split; [reflexivity|]; split; [reflexivity|intros v []]|]. exists a. auto.
  - intros n H1 H2. apply B. intros u [<-|[]]. auto.
Qed.
Lemma type_temp_names p t : type_prefix (p ++ "_temp") t <> type_prefix p t.
Proof.
  unfold type_prefix. rewrite sapp_assoc. intros E. apply sapp_inj in E. destruct t; discriminate E.
Qed.
Lemma type_spun p s t u : type_prefix p t <> (type_prefix p u ++ String "_" s)%string.
Proof.
  unfold type_prefix. rewrite !sapp_assoc. intros E. apply sapp_inj, sapp_inj in E.
  now apply (tail_none (dummy_species t) (dummy_species u) s (plain_species _) (plain_species _)).
Qed.
Lemma type_up_down p t u : (type_prefix p t ++ "_up")%string <> (type_prefix p u ++ "_down")%string.
Proof.
  unfold type_prefix. rewrite !sapp_assoc. intros E. apply sapp_inj, sapp_inj in E.
  apply (tail_split _ _ "up" "down" (plain_species t) (plain_species u)) in E as [_ E]. discriminate E.
Qed.
Lemma type_spun_inj p s t u : (type_prefix p t ++ s)%string = (type_prefix p u ++ s)%string -> dummy_species t = dummy_species u.
Proof. intros E. apply sapp_inj_r in E. now apply type_prefix_inj in E. Qed.
Lemma union_spun p s t u : s <> "fsum"%string -> union_file (type_prefix p t) <> (type_prefix p u ++ String "_" s)%string.
Proof.
  intros N. unfold union_file, type_prefix. rewrite !sapp_assoc. intros E. apply sapp_inj, sapp_inj in E.
  apply (tail_split _ _ "fsum" s (plain_species t) (plain_species u)) in E as [_ E]. congruence.
Qed.
Lemma spin_types_done s types dummy reference p f : s_equal s = false ->
  exists f', spin_types s types PathDir dummy reference p p f = Done f' /\
    (forall t u, last_with types t u -> type_in_file f' (type_prefix p t ++ "_up") (s_up s) dummy [u] /\
      type_in_file f' (type_prefix p t ++ "_down") (s_down s) dummy [u]) /\
    (forall n, (forall t, In t types -> n <> type_prefix p t /\ n <> union_file (type_prefix p t) /\
      n <> (type_prefix p t ++ "_up")%string /\ n <> (type_prefix p t ++ "_down")%string) -> f' n = f n).
Proof.
  intros Q. revert f. induction types as [|t r IH]; intros f; cbn [spin_types].
  - exists f. split; [reflexivity|]. split; [|trivial]. intros t u (b & c & E & _). now destruct b.
  - destruct (one_type (s_up s) t PathDir dummy reference p f eq_refl) as (f1 & E1 & (a1 & A1 & S1) & B1). rewrite E1. cbn [obind joined]. rewrite Q.
    destruct (rename_done (type_prefix p t) (type_prefix p t ++ "_up") f1 _ A1) as (f2 & E2 & A2 & _ & B2). rewrite E2. cbn [obind].
    destruct (one_type (s_down s) t PathDir dummy reference p f2 eq_refl) as (f3 & E3 & (a3 & A3 & S3) & B3). rewrite E3. cbn [obind].
    destruct (rename_done (type_prefix p t) (type_prefix p t ++ "_down") f3 _ A3) as (f4 & E4 & A4 & _ & B4). rewrite E4. cbn [obind].
    destruct (IH f4) as (f' & E' & A' & B'). exists f'. split; [exact E'|]. split.
    + intros x u (b & c & X & ES & H). destruct b as [|y b]; cbn in X; injection X as X X2; [|apply A'; exists b, c; auto].
      subst u c. assert (N : type_prefix p x = type_prefix p t) by (unfold type_prefix; now rewrite ES). rewrite N. split.
      * exists a1. split; [|exact S1]. rewrite B'.
        -- rewrite B4 by (try apply type_up_down; apply not_eq_sym, type_spun).
           rewrite B3 by (apply not_eq_sym; try apply type_spun; now apply (union_spun p "up")). exact A2.
        -- intros v Hv. split; [apply not_eq_sym, type_spun|]. split; [now apply not_eq_sym, (union_spun p "up")|]. split; [|apply type_up_down].
           intros E. apply type_spun_inj in E. apply (H v Hv). congruence.
      * exists a3. split; [|exact S3]. rewrite B'; [exact A4|].
        intros v Hv. split; [apply not_eq_sym, type_spun|]. split; [now apply not_eq_sym, (union_spun p "down")|]. split; [apply not_eq_sym, type_up_down|].
        intros E. apply type_spun_inj in E. apply (H v Hv). congruence.
    + intros n H. rewrite B' by (intros v Hv; apply H; now right). destruct (H t (or_introl eq_refl)) as (H1 & H2 & H3 & H4).
      rewrite B4, B3, B2, B1 by assumption. reflexivity.
Qed.
Lemma spin_equal_types s t rest dummy reference p f : s_equal s = true ->
  exists f', spin_types s (t :: rest) PathDir dummy reference (p ++ "_temp") p f = Done f' /\
    type_in_file f' (type_prefix p t) (s_up s) dummy [t] /\
    (forall n, n <> type_prefix p t -> n <> type_prefix (p ++ "_temp") t -> n <> union_file (type_prefix (p ++ "_temp") t) -> f' n = f n).
Proof.
  intros Q. cbn [spin_types].
  destruct (one_type (s_up s) t PathDir dummy reference (p ++ "_temp") f eq_refl) as (f1 & E1 & (a1 & A1 & S1) & B1). rewrite E1. cbn [obind joined]. rewrite Q.
  destruct (rename_done (type_prefix (p ++ "_temp") t) (type_prefix p t) f1 _ A1) as (f2 & E2 & A2 & _ & B2). exists f2. split; [exact E2|]. split.
  - exists a1. auto.
  - intros n H1 H2 H3. rewrite B2, B1 by assumption. reflexivity.
Qed.

(** Union of types for both spins. *)
Definition union_in (f : files) (name : string) (l : labeler) (dummy reference : bool) (types : list ftype) : Prop :=
  exists a, f name = Some (structure_for dummy l (feature_indices_by_type l types), a) /\
    shows (data_of reference l) (w_labels l) (union_of l (feature_indices_by_type l types)) a.
Lemma union_spin_done s types d dummy reference prefix f : d <> TextDir ->
  let p := spin_prefix reference s prefix in
  exists f', spin_write_features_by_type_sum s types d dummy reference prefix f = Done f' /\
    if s_equal s then union_in f' (union_file p) (s_up s) dummy reference types
    else union_in f' (union_file p ++ "_up") (s_up s) dummy reference types /\ union_in f' (union_file p ++ "_down") (s_down s) dummy reference types.
Proof.
  intros D p. unfold spin_write_features_by_type_sum. rewrite (resolve_path d D). fold p. unfold write_features_by_type_sum.
  destruct (sum_done (s_up s) (feature_indices_by_type (s_up s) types) PathDir dummy reference (Some (temp_prefix (s_equal s) p)) f
    ltac:(discriminate) (by_type_valid _ _)) as (a & E & S1). rewrite E. cbn [obind joined or_default].
  destruct (s_equal s) eqn:Q; cbn [temp_prefix] in *.
  - destruct (rename_done (union_file (p ++ "_temp")) (union_file p) _ _ (write_same (union_file (p ++ "_temp")) (structure_for dummy (s_up s) (feature_indices_by_type (s_up s) types), a) f))
      as (f2 & E2 & A2 & _). exists f2. split; [exact E2|]. exists a. auto.
  - destruct (rename_done (union_file p) (union_file p ++ "_up") _ _ (write_same (union_file p) (structure_for dummy (s_up s) (feature_indices_by_type (s_up s) types), a) f))
      as (f2 & E2 & A2 & _). rewrite E2. cbn [obind].
    destruct (sum_done (s_down s) (feature_indices_by_type (s_down s) types) PathDir dummy reference (Some p) f2
      ltac:(discriminate) (by_type_valid _ _)) as (b & E3 & S3). rewrite E3. cbn [obind or_default].
    destruct (rename_done (union_file p) (union_file p ++ "_down") _ _ (write_same (union_file p) (structure_for dummy (s_down s) (feature_indices_by_type (s_down s) types), b) f2))
      as (f4 & E4 & A4 & _ & B4). exists f4. split; [exact E4|]. split; [|exists b; auto].
    exists a. split; [|exact S1].
    assert (N : forall x, (union_file p ++ String "_" x)%string <> union_file p).
    { intros x E5. unfold union_file in E5. rewrite sapp_assoc in E5. apply sapp_inj in E5. discriminate E5. }
    rewrite B4; [|apply N|].
    + rewrite write_other by apply N. exact A2.
    + unfold union_file. rewrite !sapp_assoc. intros E5. apply sapp_inj in E5. discriminate E5.
Qed.

(** ** Atoms of both spins *)
Definition without (data : arr3 Q) (labels : arr3 Z) (i : Z) (a : arr3 Q) : Prop :=
  forall x y z, (labels x y z = i -> a x y z = 0%Q) /\ (labels x y z <> i -> a x y z = data x y z).
Definition atom_in (f : files) (name : string) (p : parts) (dummy reference : bool) (i : Z) : Prop :=
  exists a, f name = Some (part_structure dummy p, a) /\ without (part_data reference p) (p_labels p) i a.
Lemma one_atom_done p i dummy reference prefix f :
  exists a, badelf_write_atoms p [i] PathDir dummy reference prefix f = Done (write (atom_file prefix i) (part_structure dummy p, a) f) /\
    without (part_data reference p) (p_labels p) i a.
Proof.
  unfold badelf_write_atoms. cbn. eexists. split; [reflexivity|]. intros x y z. cbn.
  destruct (Z.eqb_spec (p_labels p x y z) i); split; intros; congruence.
Qed.
Lemma atom_spun p s i j : atom_file p i <> (atom_file p j ++ String "_" s)%string.
Proof.
  unfold atom_file. rewrite !sapp_assoc. intros E. apply sapp_inj, sapp_inj in E.
  now apply (tail_none (str i) (str j) s (plain_str i) (plain_str j)).
Qed.
Lemma atom_up_down p i j : (atom_file p i ++ "_up")%string <> (atom_file p j ++ "_down")%string.
Proof.
  unfold atom_file. rewrite !sapp_assoc. intros E. apply sapp_inj, sapp_inj in E.
  apply (tail_split (str i) (str j) "up" "down" (plain_str i) (plain_str j)) in E as [_ E]. discriminate E.
Qed.
Lemma atom_final_inj p s i j : (atom_file p i ++ s)%string = (atom_file p j ++ s)%string -> i = j.
Proof. intros E. apply sapp_inj_r in E. now apply atom_file_inj in E. Qed.
Lemma spin_atoms_done s indices dummy reference p f : sp_equal s = false ->
  exists f', spin_atoms s indices PathDir dummy reference p p f = Done f' /\
    (forall i, In i indices -> atom_in f' (atom_file p i ++ "_up") (sp_up s) dummy reference i /\
      atom_in f' (atom_file p i ++ "_down") (sp_down s) dummy reference i) /\
    (forall n, (forall i, In i indices -> n <> atom_file p i /\ n <> (atom_file p i ++ "_up")%string /\ n <> (atom_file p i ++ "_down")%string) -> f' n = f n).
Proof.
  intros Q. revert f. induction indices as [|i t IH]; intros f; cbn [spin_atoms].
  - exists f. split; [reflexivity|]. split; [intros i []|trivial].
  - destruct (one_atom_done (sp_up s) i dummy reference p f) as (a & E1 & S1). rewrite E1. cbn [obind joined]. rewrite Q.
    destruct (rename_done (atom_file p i) (atom_file p i ++ "_up") _ _ (write_same (atom_file p i) (part_structure dummy (sp_up s), a) f)) as (f2 & E2 & A2 & _ & B2).
    rewrite E2. cbn [obind]. destruct (one_atom_done (sp_down s) i dummy reference p f2) as (b & E3 & S3). rewrite E3. cbn [obind].
    destruct (rename_done (atom_file p i) (atom_file p i ++ "_down") _ _ (write_same (atom_file p i) (part_structure dummy (sp_down s), b) f2)) as (f4 & E4 & A4 & _ & B4).
    rewrite E4. cbn [obind]. destruct (IH f4) as (f' & E' & A' & B'). exists f'. split; [exact E'|]. split.
    + intros j [<-|H]; [|now apply A'].
      destruct (in_dec Z.eq_dec i t) as [H|H]; [now apply A'|].
      assert (N : forall s1 j, In j t -> (atom_file p i ++ s1)%string <> (atom_file p j ++ s1)%string).
      { intros s1 j Hj E. apply atom_final_inj in E. now subst j. }
      split.
      * exists a. split; [|exact S1]. rewrite B' by (intros j Hj; split; [apply not_eq_sym, atom_spun|]; split; [now apply N|apply atom_up_down]).
        rewrite B4 by (try apply atom_up_down; apply not_eq_sym, atom_spun).
        rewrite write_other by (apply not_eq_sym, atom_spun). exact A2.
      * exists b. split; [|exact S3]. rewrite B' by (intros j Hj; split; [apply not_eq_sym, atom_spun|]; split; [apply not_eq_sym, atom_up_down|now apply N]).
        exact A4.
    + intros n H. rewrite B' by (intros v Hv; apply H; now right). destruct (H i (or_introl eq_refl)) as (H1 & H2 & H3).
      rewrite B4 by assumption. rewrite write_other by assumption. rewrite B2 by assumption. now apply write_other.
Qed.
Lemma spin_atoms_equal s indices dummy reference temp prefix f : sp_equal s = true ->
  exists f', spin_atoms s indices PathDir dummy reference temp prefix f = Done f' /\
    (forall i, In i indices -> atom_in f' (atom_file temp i) (sp_up s) dummy reference i) /\
    (forall n, ~ In n (map (atom_file temp) indices) -> f' n = f n).
Proof.
  intros Q. revert f. induction indices as [|i t IH]; intros f; cbn [spin_atoms].
  - exists f. split; [reflexivity|]. split; [intros i []|trivial].
  - destruct (one_atom_done (sp_up s) i dummy reference temp f) as (a & E1 & S1). rewrite E1. cbn [obind joined]. rewrite Q.
    destruct (IH (write (atom_file temp i) (part_structure dummy (sp_up s), a) f)) as (f' & E' & A' & B'). exists f'. split; [exact E'|]. split.
    + intros j [<-|H]; [|now apply A'].
      destruct (in_dec Z.eq_dec i t) as [H|H]; [now apply A'|].
      exists a. split; [|exact S1]. rewrite B'; [apply write_same|]. intros I. apply in_map_iff in I as (j & E & Hj).
      apply atom_file_inj in E. now subst j.
    + intros n H. cbn [map In] in H. rewrite B' by tauto. apply write_other. intros ->. apply H. now left.
Qed.
