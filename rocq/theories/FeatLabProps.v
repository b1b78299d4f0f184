(** C47, C66: feature labels. *)
From Coq Require Import QArith.
From Verif Require Import Base RootsModel UnionModel ChargeModel ChargeProofs FeatLabModel FeatLabSpec FeatLabProofs.
Local Open Scope nat_scope.

Section P.
Variable bare : nat -> bool.
Variable feats : list lfeature.
Variable natoms : nat.
Variable basin_atoms : list nat.
Variable labels : list Z.
Variable charges volumes : list Q.
Variable included : list nat.
Variable order : bool.
Hypothesis OK : tables_ok feats natoms basin_atoms labels charges volumes.

Let idx := selected bare feats included order.

Lemma idx_ok : selection bare feats included order idx.
Proof. apply selected_ok. Qed.

Lemma relabelled : exists ba, relabel feats basin_atoms (map SAtom (seq 0 natoms)) natoms idx
      = Done (ba, map SAtom (seq 0 natoms) ++ map SFeature idx) /\ length ba = length basin_atoms /\
    (forall b, b < length ba -> exists s, nth_error ba b = Some s /\ owner feats natoms basin_atoms idx b s).
Proof.
  destruct (relabel_ok bare feats natoms basin_atoms labels charges volumes OK idx [] basin_atoms) as (ba & E & L & N).
  - apply idx_ok.
  - intros i Hi. apply (proj1 (proj2 idx_ok)) in Hi as (f & E & _). apply nth_error_Some. congruence.
  - reflexivity.
  - intros b Hb. destruct (nth_error basin_atoms b) as [s|] eqn:E; [|apply nth_error_None in E; lia].
    exists s. split; [reflexivity|]. right. split; [intros i f []|exact E].
  - exists ba. cbn [map app length] in E. rewrite app_nil_r, Nat.add_0_r in E. auto.
Qed.

Lemma owner_range b s : owner feats natoms basin_atoms idx b s -> s < natoms + length idx.
Proof.
  intros [(k & i & f & A & _ & _ & ->)|(_ & A)].
  - assert (k < length idx) by (apply nth_error_Some; congruence). lia.
  - apply nth_error_In, (tk_atoms _ _ _ _ _ _ OK) in A. lia.
Qed.

Lemma np_get_label ba b : (0 <= b < Z.of_nat (length ba))%Z ->
  np_get (map Z.of_nat ba ++ [(-1)%Z]) b = Some (Z.of_nat (nth (Z.to_nat b) ba 0)).
Proof.
  intro H. unfold np_get. rewrite np_idx_pos by (rewrite app_length, map_length; cbn; lia).
  rewrite nth_error_app1 by (rewrite map_length; lia). apply map_nth_error, nth_error_nth'. lia.
Qed.
Lemma np_get_vacuum ba : np_get (map Z.of_nat ba ++ [(-1)%Z]) (-1) = Some (-1)%Z.
Proof.
  unfold np_get, np_idx. rewrite app_length, map_length. cbn [length].
  replace ((0 <=? -1)%Z && (-1 <? Z.of_nat (length ba + 1))%Z)%bool with false by lia.
  replace ((- Z.of_nat (length ba + 1) <=? -1)%Z && (-1 <? 0)%Z)%bool with true by lia.
  replace (Z.to_nat (-1 + Z.of_nat (length ba + 1))) with (length (map Z.of_nat ba)) by (rewrite map_length; lia).
  now rewrite nth_error_app2, Nat.sub_diag by lia.
Qed.

Lemma bincount_own ba w own s : length w = length basin_atoms -> length ba = length basin_atoms ->
  (forall b, b < length ba -> nth b ba 0 = own b) -> (forall b, b < length ba -> own b < natoms + length idx) ->
  s < natoms + length idx ->
  (nth s (bincount ba w (natoms + length idx)) 0 == qsum (map (fun b => if Nat.eqb (own b) s then nth b w 0 else 0) (seq 0 (length basin_atoms))))%Q
  /\ length (bincount ba w (natoms + length idx)) = natoms + length idx
  /\ (qsum (bincount ba w (natoms + length idx)) == qsum w)%Q.
Proof.
  intros Lw Lb O R Hs. destruct (bincount_spec ba w (natoms + length idx)) as (A & B & C); [congruence| |].
  - apply Forall_forall. intros x Hx. apply (In_nth _ _ 0) in Hx as (b & Hb & <-). rewrite (O b Hb). now apply R.
  - split; [|split; assumption]. rewrite (B s Hs). clear -Lw Lb O.
    rewrite <- Lb in *. revert w own Lw O. clear Lb. induction ba as [|x t IH]; intros [|y w] own Lw O; try discriminate; [reflexivity|].
    cbn [combine map length seq fst snd]. rewrite !qsum_cons. rewrite <- (O 0) by (cbn; lia). cbn [nth].
    rewrite (IH w (fun b => own (S b))); [|now injection Lw|intros b Hb; apply (O (S b)); cbn; lia].
    rewrite <- seq_shift, map_map. reflexivity.
Qed.

(** C47: labels, sites, indices, charges and volumes as requested, for every table of basins. *)
Theorem C47_labels : exists idx own lab c v,
  get_feature_labels bare feats natoms basin_atoms labels charges volumes included true true true order
    = Done (Tuple [ILabels lab; IStructure (map SAtom (seq 0 natoms) ++ map SFeature idx); IIndices idx; IValues c; IValues v]) /\
  selection bare feats included order idx /\
  (forall b, b < length basin_atoms -> forall s, owner feats natoms basin_atoms idx b s <-> s = own b) /\
  length lab = length labels /\
  (forall x, nth_error labels x = Some (-1)%Z -> nth_error lab x = Some (Some (-1)%Z)) /\
  (forall x b, nth_error labels x = Some b -> (0 <= b)%Z -> nth_error lab x = Some (Some (Z.of_nat (own (Z.to_nat b))))) /\
  length c = natoms + length idx /\ length v = natoms + length idx /\
  (forall s, s < natoms + length idx ->
     (nth s c 0 == qsum (map (fun b => if Nat.eqb (own b) s then nth b charges 0 else 0) (seq 0 (length basin_atoms))))%Q /\
     (nth s v 0 == qsum (map (fun b => if Nat.eqb (own b) s then nth b volumes 0 else 0) (seq 0 (length basin_atoms))))%Q).
Proof.
  destruct relabelled as (ba & E & L & N).
  exists idx, (fun b => nth b ba 0), (atom_labels ba labels), (bincount ba charges (natoms + length idx)), (bincount ba volumes (natoms + length idx)).
  assert (LS : length (map SAtom (seq 0 natoms) ++ map SFeature idx) = natoms + length idx)
    by (rewrite app_length, !map_length, seq_length; reflexivity).
  assert (OW : forall b, b < length ba -> owner feats natoms basin_atoms idx b (nth b ba 0)).
  { intros b Hb. destruct (N b Hb) as (s & Es & O). now rewrite (nth_error_nth _ _ _ Es). }
  assert (OR : forall b, b < length ba -> nth b ba 0 < natoms + length idx) by (intros b Hb; eapply owner_range, OW, Hb).
  split; [|split; [apply idx_ok|split; [|split; [|split; [|split; [|split; [|split]]]]]]].
  - unfold get_feature_labels. fold idx. rewrite E. cbn [obind orb negb]. rewrite LS. reflexivity.
  - intros b Hb s. rewrite <- L in Hb. split; [|intros ->; now apply OW].
    intro H. eapply (owner_unique feats natoms basin_atoms labels charges volumes OK); [apply idx_ok|exact H|now apply OW].
  - unfold atom_labels. now rewrite map_length.
  - intros x H. unfold atom_labels. rewrite (map_nth_error _ _ _ H), np_get_vacuum. reflexivity.
  - intros x b H Hb. unfold atom_labels. rewrite (map_nth_error _ _ _ H), np_get_label; [reflexivity|].
    apply nth_error_In, (tk_labels _ _ _ _ _ _ OK) in H. lia.
  - destruct (bincount_spec ba charges (natoms + length idx)) as (A & _);
      [rewrite (tk_charges _ _ _ _ _ _ OK); exact L| |exact A].
    apply Forall_forall. intros y Hy. apply (In_nth _ _ 0) in Hy as (b & Hb & <-). now apply OR.
  - destruct (bincount_spec ba volumes (natoms + length idx)) as (A & _);
      [rewrite (tk_volumes _ _ _ _ _ _ OK); exact L| |exact A].
    apply Forall_forall. intros y Hy. apply (In_nth _ _ 0) in Hy as (b & Hb & <-). now apply OR.
  - intros s Hs. split; apply bincount_own; auto; apply OK.
Qed.

(** C47: charges and volumes of the sites add up to those of the basins. *)
Theorem C47_conserved lab sites ix c v :
  get_feature_labels bare feats natoms basin_atoms labels charges volumes included true true true order
    = Done (Tuple [ILabels lab; IStructure sites; IIndices ix; IValues c; IValues v]) ->
  (qsum c == qsum charges /\ qsum v == qsum volumes)%Q.
Proof.
  destruct relabelled as (ba & E & L & N). unfold get_feature_labels. fold idx. rewrite E. cbn [obind orb negb app].
  intros [= _ _ _ <- <-]. rewrite app_length, !map_length, seq_length.
  assert (F : Forall (fun i => i < natoms + length idx) ba).
  { apply Forall_forall. intros y Hy. apply (In_nth _ _ 0) in Hy as (b & Hb & <-).
    destruct (N b Hb) as (s & Es & O). rewrite (nth_error_nth _ _ _ Es). eapply owner_range, O. }
  split; (eapply bincount_spec; [|exact F]); rewrite L; symmetry; apply OK.
Qed.

(** C47: what is not requested is left out and does not change the rest. *)
Theorem C47_parts rs ri rc : rs || ri || rc = true ->
  exists lab sites ix c v,
    get_feature_labels bare feats natoms basin_atoms labels charges volumes included true true true order
      = Done (Tuple [ILabels lab; IStructure sites; IIndices ix; IValues c; IValues v]) /\
    get_feature_labels bare feats natoms basin_atoms labels charges volumes included rs ri rc order
      = Done (Tuple ([ILabels lab] ++ (if rs then [IStructure sites] else []) ++ (if ri then [IIndices ix] else [])
                     ++ (if rc then [IValues c; IValues v] else []))).
Proof.
  intro H. destruct relabelled as (ba & E & L & N). do 5 eexists. unfold get_feature_labels. fold idx. rewrite E.
  cbn [obind]. rewrite H. cbn [orb negb app]. split; reflexivity.
Qed.
End P.
Print Assumptions C47_labels.
Print Assumptions C47_conserved.
Print Assumptions C47_parts.

(** Two atoms, five basins; a covalent feature (type 1) on basins 1 and 3, a bare electron (type 7)
    on basin 4, a core (type 0) on basin 0. *)
Definition ex_feats := [LFeature 0 [0]; LFeature 1 [3; 1]; LFeature 7 [4]].
Definition ex_atoms := [0; 0; 1; 1; 0].
Definition ex_labels := [0; 1; -1; 2; 3; 4; 4]%Z.

Example C47_ex_ok : tables_ok ex_feats 2 ex_atoms ex_labels [5; 1; 6; 2; 1]%Q [9; 2; 8; 3; 4]%Q.
Proof.
  split; [| | | |reflexivity|reflexivity].
  - intros a Ha. cbn in Ha. lia.
  - intros f b [<-|[<-|[<-|[]]]] Hb; cbn in Hb |- *; lia.
  - intros i j f g b Hi Hj Hf Hg. do 3 (destruct i as [|i]; [do 3 (destruct j as [|j]; [cbn in Hi, Hj; injection Hi as <-; injection Hj as <-; cbn in Hf, Hg; lia|]); destruct j; discriminate|]).
    destruct i; discriminate.
  - intros l Hl. cbn in Hl |- *. lia.
Qed.

Example C47_ex :
  get_feature_labels (Nat.eqb 7) ex_feats 2 ex_atoms ex_labels [5; 1; 6; 2; 1]%Q [9; 2; 8; 3; 4]%Q [1; 7] true true false true
  = Done (Tuple [ILabels [Some 0; Some 3; Some (-1); Some 1; Some 3; Some 2; Some 2]%Z;
                 IStructure [SAtom 0; SAtom 1; SFeature 2; SFeature 1]; IIndices [2; 1]]).
Proof. reflexivity. Qed.

(** C66: the documentation says that the result is always a tuple. *)
Theorem C66_tuple_refuted : exists bare feats natoms ba labels c v included order r,
  tables_ok feats natoms ba labels c v /\
  get_feature_labels bare feats natoms ba labels c v included false false false order = Done r /\
  forall l, r <> Tuple l.
Proof.
  exists (Nat.eqb 7), ex_feats, 2, ex_atoms, ex_labels, [5; 1; 6; 2; 1]%Q, [9; 2; 8; 3; 4]%Q, [1; 7], true.
  eexists. split; [exact C47_ex_ok|]. split; [reflexivity|]. discriminate.
Qed.
Print Assumptions C66_tuple_refuted.
