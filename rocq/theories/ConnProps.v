(** C37 and C59: the recorded connections between basins. *)
From Coq Require Import QArith.
From Verif Require Import Base GridModel NeighModel NeighSpec LabelsModel ConnModel ConnSpec ConnProofs.
Local Open Scope Z_scope.

(** What the function may assume about its arguments: labels between -1 and [num]-1, at
    most 65536 basins (16 bit numbers), neighbours at most one voxel away. *)
Definition conn_input (nx ny nz : Z) (num : nat) (ts : list offset) (labels : arr3 Z)
    (data : arr3 Q) : Prop :=
  0 < nx /\ 0 < ny /\ 0 < nz /\ Z.of_nat num <= 65536 /\ (forall s, In s ts -> unit_offset s) /\
  basin_labels nx ny nz num labels /\
  (forall v, in_grid nx ny nz v -> (inject_Z (- 10 ^ 300) < value_at data v)%Q).

(** Two basins joined at a saddle voxel are recorded with the largest value at which a
    saddle voxel joins them, or more (never less). *)
Theorem C37_saddles nx ny nz num ts labels data bif edge vac a b q :
  conn_input nx ny nz num ts labels data ->
  meets nx ny nz ts labels data vac bif a b q ->
  exists q', In (Z.min a b, Z.max a b, q')
      (find_domain_connections nx ny nz num labels data bif edge vac ts) /\
    (q <= q')%Q /\ meets nx ny nz ts labels data vac bif a b q'.
Proof. intros (H1 & H2 & H3 & H4 & H5 & H6 & H7) M. now apply conns_saddle. Qed.
Print Assumptions C37_saddles.

(** A basin without a saddle voxel is connected to each basin it touches at a positive
    value, at the largest value over all boundary voxels. *)
Theorem C37_missing nx ny nz num ts labels data bif edge vac a b q :
  conn_input nx ny nz num ts labels data ->
  lonely (meets nx ny nz ts labels data vac bif) a ->
  meets nx ny nz ts labels data vac edge a b q -> (0 < q)%Q ->
  exists q', In (Z.min a b, Z.max a b, q')
      (find_domain_connections nx ny nz num labels data bif edge vac ts) /\
    (q <= q')%Q /\ meets nx ny nz ts labels data vac edge a b q' /\
    forall q'', meets nx ny nz ts labels data vac edge a b q'' -> (q'' <= q')%Q.
Proof. intros (H1 & H2 & H3 & H4 & H5 & H6 & H7) L M P. now apply conns_missing with (q := q). Qed.
Print Assumptions C37_missing.

(** Nothing else is recorded: every record names two different basins, smaller first, and
    its value is one at which a saddle voxel joins them, or, for a basin without saddle
    voxels, the largest at which a boundary voxel joins them. *)
Theorem C37_sound nx ny nz num ts labels data bif edge vac lo hi q :
  conn_input nx ny nz num ts labels data ->
  In (lo, hi, q) (find_domain_connections nx ny nz num labels data bif edge vac ts) ->
  0 <= lo /\ lo < hi /\ hi < Z.of_nat num /\
  exists a b, ((a = lo /\ b = hi) \/ (a = hi /\ b = lo)) /\
    (meets nx ny nz ts labels data vac bif a b q \/
     (lonely (meets nx ny nz ts labels data vac bif) a /\
      meets nx ny nz ts labels data vac edge a b q /\ (0 < q)%Q /\
      forall q', meets nx ny nz ts labels data vac edge a b q' -> (q' <= q)%Q)).
Proof. intros (H1 & H2 & H3 & H4 & H5 & H6 & H7) H. now apply (conns_sound nx ny nz H1 H2 H3 num labels data bif edge vac ts H5 H6 H7 H4). Qed.
Print Assumptions C37_sound.

(** For positive data no basin that touches another one at an edge voxel stays alone. *)
Theorem C37_linked nx ny nz num ts labels data bif edge vac a b q :
  conn_input nx ny nz num ts labels data ->
  (forall v, in_grid nx ny nz v -> (0 < value_at data v)%Q) ->
  meets nx ny nz ts labels data vac edge a b q ->
  ~ (forall lo hi q',
       In (lo, hi, q') (find_domain_connections nx ny nz num labels data bif edge vac ts) ->
       lo <> a /\ hi <> a).
Proof.
  intros HI P M N.
  assert (L : lonely (meets nx ny nz ts labels data vac bif) a).
  { intros c r. split; intro X; destruct (C37_saddles nx ny nz num ts labels data bif edge vac _ _ _ HI X)
      as (q' & I & _); apply N in I; lia. }
  assert (Q0 : (0 < q)%Q).
  { destruct M as (v & s & w & G & _ & _ & Hs & T & _ & _ & _ & _ & _ & ->).
    assert (Gw : in_grid nx ny nz w).
    { destruct HI as (H1 & H2 & H3 & _). eapply (NeighProofs.ptarget_in_grid nx ny nz); eauto. }
    destruct (Qlt_le_dec _ _); now apply P. }
  destruct (C37_missing nx ny nz num ts labels data bif edge vac a b q HI L M Q0) as (q' & I & _).
  apply N in I. lia.
Qed.
Print Assumptions C37_linked.

(** Six voxels in a row, basins 0 0 1 1 2 2, one saddle voxel between basins 0 and 1. *)
Definition row6 {A} (d : A) (l : list A) : arr3 A := fun i _ _ => nth (Z.to_nat i) l d.
Definition ts2 : list offset := [((-1), 0, 0); (1, 0, 0)].
Definition lab6 := row6 (-1) [0; 0; 1; 1; 2; 2].
Definition dat6 := row6 0%Q [5; 3; 2; 6; 4; 7]%Q.
Definition bif6 := row6 false [false; true; false; false; false; false].
Definition all6 : arr3 bool := fun _ _ _ => true.
Definition none6 : arr3 bool := fun _ _ _ => false.

Example conn_example :
  find_domain_connections 6 1 1 3 lab6 dat6 bif6 all6 none6 ts2 =
  [(0, 1, 2%Q); (0, 2, 5%Q); (1, 2, 4%Q)].
Proof. vm_compute. reflexivity. Qed.

Lemma row_cases (P : Z * Z * Z -> Prop) n : (forall i, 0 <= i < n -> P (i, 0, 0)) ->
  forall v, in_grid n 1 1 v -> P v.
Proof.
  intros H [[i j] k] (A & B & C). replace j with 0 by lia. replace k with 0 by lia. now apply H.
Qed.

Example conn_example_input : conn_input 6 1 1 3 ts2 lab6 dat6.
Proof.
  do 4 (split; [lia|]). split; [|split].
  - intros s [<-|[<-|[]]]; cbn; lia.
  - intro v. revert v. apply row_cases. intros i Hi.
    assert (C : i = 0 \/ i = 1 \/ i = 2 \/ i = 3 \/ i = 4 \/ i = 5) by lia.
    destruct C as [->|[->|[->|[->|[->| ->]]]]]; (split; [discriminate|reflexivity]).
  - apply row_cases. intros i Hi.
    assert (C : i = 0 \/ i = 1 \/ i = 2 \/ i = 3 \/ i = 4 \/ i = 5) by lia.
    destruct C as [->|[->|[->|[->|[->| ->]]]]]; apply Qltb_lt; reflexivity.
Qed.

Example conn_example_meets : meets 6 1 1 ts2 lab6 dat6 none6 bif6 0 1 2%Q.
Proof.
  exists (1, 0, 0), (1, 0, 0), (2, 0, 0). repeat split; try (cbn; lia); try reflexivity.
  now right; left.
Qed.

Example conn_example_meets_edge : meets 6 1 1 ts2 lab6 dat6 none6 all6 2 0 5%Q.
Proof.
  exists (5, 0, 0), (1, 0, 0), (0, 0, 0). repeat split; try (cbn; lia); try reflexivity.
  now right; left.
Qed.

(** C59 is false: with values that are not positive, a basin without saddle voxels gets no
    connection although it touches another basin. *)
Definition dat_neg := row6 0%Q [(-1); (-3); (-2); (-6); (-4); (-7)]%Q.
Theorem C59_linked_refuted : exists nx ny nz num ts labels data bif edge vac a b q,
  conn_input nx ny nz num ts labels data /\
  meets nx ny nz ts labels data vac edge a b q /\
  forall lo hi q', In (lo, hi, q') (find_domain_connections nx ny nz num labels data bif edge vac ts) ->
    lo <> a /\ hi <> a.
Proof.
  exists 6, 1, 1, 3%nat, ts2, lab6, dat_neg, bif6, all6, none6, 2, 0, (-7)%Q. split; [|split].
  - destruct conn_example_input as (H1 & H2 & H3 & H4 & H5 & H6 & _).
    repeat (split; [assumption|]). apply row_cases. intros i Hi.
    assert (C : i = 0 \/ i = 1 \/ i = 2 \/ i = 3 \/ i = 4 \/ i = 5) by lia.
    destruct C as [->|[->|[->|[->|[->| ->]]]]]; apply Qltb_lt; reflexivity.
  - exists (5, 0, 0), (1, 0, 0), (0, 0, 0). repeat split; try (cbn; lia); try reflexivity.
    now right; left.
  - intros lo hi q' H.
    assert (E : find_domain_connections 6 1 1 3 lab6 dat_neg bif6 all6 none6 ts2 = [(0, 1, (-3)%Q)])
      by (vm_compute; reflexivity).
    rewrite E in H. destruct H as [H|[]]. injection H as <- <- <-. lia.
Qed.
Print Assumptions C59_linked_refuted.
