(** Every basin becomes an irreducible node: from the grid to the bifurcation graph. *)
From Coq Require Import QArith Lqa Sorted.
From Verif Require Import Base GridModel NeighModel NeighSpec RootsModel UnionModel LabelsModel ConnModel ConnSpec ConnProofs ConnProps.
From Verif Require Import NodesModel NodesSpec DictModel CoordMerge SplitModel SplitSpec BuildModel BuildProofs BuildTop UnionSpec BifModel BifSpec BifTop BifProps BuildProps.
Local Open Scope Z_scope.

(** graph.py lines 415-419: the connections found and one of each basin with itself at its maximum. *)
Definition all_connections (num : nat) (maxref : nat -> Q) (found : list (Z * Z * Q)) : list conn :=
  map (fun '(a, b, q) => (Z.to_nat a, Z.to_nat b, q)) found ++ map (fun a => (a, a, maxref a)) (seq 0 num).
(** Lines 421-437: [np.unique] keeps one of each set of equal rows, in some order. *)
Definition unique_rows (all cs : list conn) : Prop :=
  (forall c, In c cs -> In c all) /\ forall i j v, In (i, j, v) all -> exists v', In (i, j, v') cs /\ (v' == v)%Q.

(** [maxref] is the highest value of a basin, and where a basin reaches it the neighbours in other basins are lower. *)
Definition peaks (nx ny nz : Z) (ts : list (Z * Z * Z)) (labels : arr3 Z) (data : arr3 Q) (maxref : nat -> Q) : Prop :=
  (forall v a, in_grid nx ny nz v -> value_at labels v = Z.of_nat a -> (value_at data v <= maxref a)%Q) /\
  (forall v s w a b, in_grid nx ny nz v -> In s ts -> periodic_target nx ny nz v s w -> value_at labels v = Z.of_nat a -> value_at labels w = Z.of_nat b -> a <> b ->
     (value_at data v == maxref a)%Q -> (value_at data w < value_at data v)%Q).
Definition opposite (s : Z * Z * Z) : Z * Z * Z := let '(a, b, c) := s in (- a, - b, - c).

Lemma target_back nx ny nz v s w : 0 < nx -> 0 < ny -> 0 < nz -> in_grid nx ny nz v -> periodic_target nx ny nz v s w -> in_grid nx ny nz w /\ periodic_target nx ny nz w (opposite s) v.
Proof.
  destruct v as [[i j] k], s as [[a b] c]. intros X Y Z0 G ->. unfold in_grid, periodic_target, opposite in *. split; [split; [|split]; apply Z.mod_pos_bound; lia|].
  rewrite !Zplus_mod_idemp_l. replace (i + a + - a) with i by lia. replace (j + b + - b) with j by lia. replace (k + c + - c) with k by lia. rewrite !Z.mod_small by lia. reflexivity.
Qed.
Lemma meets_below nx ny nz ts labels data vac mask maxref a b q : 0 < nx -> 0 < ny -> 0 < nz -> (forall s, In s ts -> In (opposite s) ts) -> peaks nx ny nz ts labels data maxref ->
  0 <= a -> 0 <= b -> meets nx ny nz ts labels data vac mask a b q -> (q < maxref (Z.to_nat a))%Q /\ (q < maxref (Z.to_nat b))%Q.
Proof.
  intros X Y Z0 SY (P1 & P2) A B (v & s & w & G & _ & _ & IS & T & LV & LW & _ & _ & N & ->). destruct (target_back nx ny nz v s w X Y Z0 G T) as (GW & TB).
  assert (LA : value_at labels v = Z.of_nat (Z.to_nat a)) by lia. assert (LB : value_at labels w = Z.of_nat (Z.to_nat b)) by lia.
  pose proof (P1 v _ G LA) as MA. pose proof (P1 w _ GW LB) as MB. assert (NN : Z.to_nat a <> Z.to_nat b) by lia.
  pose proof (P2 v s w _ _ G IS T LA LB NN) as QA. pose proof (P2 w (opposite s) v _ _ GW (SY s IS) TB LB LA ltac:(congruence)) as QB.
  destruct (Qlt_le_dec (value_at data w) (value_at data v)) as [L|L].
  - split; [lra|]. destruct (Qlt_le_dec (value_at data w) (maxref (Z.to_nat b))) as [|H]; [assumption|]. specialize (QB ltac:(lra)). lra.
  - split; [|lra]. destruct (Qlt_le_dec (value_at data v) (maxref (Z.to_nat a))) as [|H]; [assumption|]. specialize (QA ltac:(lra)). lra.
Qed.

(** C170: if every basin is highest inside, every basin is alone in an irreducible node of the graph, and stays in an irreducible
    node when shallow nodes are removed and combined. *)
Theorem C170_basins nx ny nz num ts labels data bif edge vac maxref min_data cs fuel order dimf : conn_input nx ny nz num ts labels data ->
  (forall s, In s ts -> In (opposite s) ts) -> peaks nx ny nz ts labels data maxref -> (0 < num)%nat -> (num <= fuel)%nat -> (forall i, In i order <-> (i < num)%nat) ->
  (forall a, (a < num)%nat -> (min_data < maxref a)%Q /\ (maxref a < huge)%Q) ->
  (forall mask a b q, mask = bif \/ mask = edge -> meets nx ny nz ts labels data vac mask a b q -> (min_data < q)%Q) ->
  unique_rows (all_connections num maxref (find_domain_connections nx ny nz num labels data bif edge vac ts)) cs ->
  exists recs, find_domain_bifurcations fuel order dimf maxref min_data cs num = Done recs /\
    forall doms steps type maxima charges volumes, passed_on recs doms -> SplitSpec.covers steps doms ->
      exists n f, get_domains_surrounding_atoms doms steps = Done n /\ construct n type maxima charges volumes = Done f /\ well_formed (f_graph f) /\
        forall x, (x < num)%nat -> (exists i, In i (g_nodes (f_graph f)) /\ ~ reducible (f_graph f) i /\ basins_of (f_graph f) i = [x]) /\
          forall argsort fuel c1 c2 g', sorts argsort -> simplify argsort fuel c1 c2 (f_graph f) = Done g' -> well_formed g' /\ leaf_basin g' x.
Proof.
  intros CI SY PK NP FU OR HI LO (U1 & U2). pose proof CI as (X & Y & Z0 & _).
  assert (FOUND : forall lo hi q, In (lo, hi, q) (find_domain_connections nx ny nz num labels data bif edge vac ts) -> 0 <= lo /\ lo < hi /\ hi < Z.of_nat num /\ (min_data < q)%Q /\ (q < maxref (Z.to_nat lo))%Q /\ (q < maxref (Z.to_nat hi))%Q).
  { intros lo hi q H. destruct (C37_sound nx ny nz num ts labels data bif edge vac lo hi q CI H) as (L0 & L1 & L2 & a & b & AB & M). do 3 (split; [assumption|]).
    assert (K : (min_data < q)%Q /\ (q < maxref (Z.to_nat a))%Q /\ (q < maxref (Z.to_nat b))%Q).
    { destruct M as [M|(_ & M & _)]; (split; [eapply LO; [|exact M]; auto|]); (eapply meets_below; [exact X|exact Y|exact Z0|exact SY|exact PK| | |exact M]; lia). }
    destruct AB as [[-> ->]|[-> ->]]; tauto. }
  assert (EACH : forall i j v, In (i, j, v) cs -> (i < num)%nat /\ (j < num)%nat /\ (min_data < v)%Q /\ (v <= maxref i)%Q /\ (v <= maxref j)%Q /\ (i <> j -> (v < maxref i)%Q /\ (v < maxref j)%Q) /\ (v < huge)%Q).
  { intros i j v H. apply U1 in H. unfold all_connections in H. apply in_app_or in H as [H|H].
    - apply in_map_iff in H as ([[lo hi] q] & E & H). injection E as <- <- <-. destruct (FOUND lo hi q H) as (L0 & L1 & L2 & L3 & L4 & L5). destruct (HI (Z.to_nat lo) ltac:(lia)) as [_ HH]. split; [lia|]. split; [lia|]. split; [exact L3|]. split; [lra|]. split; [lra|]. split; [auto|lra].
    - apply in_map_iff in H as (a & E & H). injection E as <- <- <-. apply in_seq in H. destruct (HI a ltac:(lia)) as [H1 H2]. split; [lia|]. split; [lia|]. split; [exact H1|]. split; [lra|]. split; [lra|]. split; [congruence|exact H2]. }
  assert (CO : conns_ok cs num) by (intros i j v H; destruct (EACH i j v H) as (H1 & H2 & _ & _ & _ & _ & H3); auto).
  assert (MD : forall i j v, In (i, j, v) cs -> (min_data < v)%Q) by (intros i j v H; apply (EACH i j v H)).
  assert (SELF : forall x, (x < num)%nat -> exists w, In (x, x, w) cs /\ (w == maxref x)%Q) by (intros x XN; apply (U2 x x (maxref x)); unfold all_connections; apply in_or_app; right; apply in_map_iff; exists x; split; [reflexivity|apply in_seq; lia]).
  assert (NE : cs <> []) by (destruct (SELF 0%nat NP) as (w & W & _); intros ->; destruct W).
  destruct (C36_forest fuel order dimf maxref min_data cs num CO FU OR NE) as (recs & FB & _); [intros i j v H; specialize (MD i j v H); lra|]. exists recs. split; [exact FB|].
  intros doms steps type maxima charges volumes PO CV. destruct (C169_graph fuel order dimf maxref min_data cs num recs doms steps CO FU OR NE MD FB PO CV type maxima charges volumes) as (n & f & EN & EF & W & _). exists n, f. do 3 (split; [assumption|]).
  intros x XN. destruct (SELF x XN) as (w & IW & EW).
  refine (C169_leaves fuel order dimf maxref min_data cs num recs doms steps CO FU OR NE MD FB PO CV type maxima charges volumes n f x w EN EF IW _).
  intros i j v H N [->| ->]; destruct (EACH _ _ _ H) as (_ & _ & _ & _ & _ & S1 & _); destruct (S1 N); lra.
Qed.
Print Assumptions C170_basins.

(** The connections passed on: two basins that meet at a saddle voxel are connected at no lower value, and connections of two basins
    come from voxels where they meet. *)
Theorem C170_joined nx ny nz num ts labels data bif edge vac maxref cs : conn_input nx ny nz num ts labels data ->
  unique_rows (all_connections num maxref (find_domain_connections nx ny nz num labels data bif edge vac ts)) cs ->
  (forall a b q, meets nx ny nz ts labels data vac bif (Z.of_nat a) (Z.of_nat b) q -> exists v, (q <= v)%Q /\ In (Nat.min a b, Nat.max a b, v) cs) /\
  (forall i j v, In (i, j, v) cs -> i = j /\ (i < num)%nat /\ v = maxref i \/
     (i < j < num)%nat /\ exists a b, ((a = i /\ b = j) \/ (a = j /\ b = i)) /\ (meets nx ny nz ts labels data vac bif (Z.of_nat a) (Z.of_nat b) v \/ meets nx ny nz ts labels data vac edge (Z.of_nat a) (Z.of_nat b) v)).
Proof.
  intros CI (U1 & U2). split.
  - intros a b q M. destruct (C37_saddles nx ny nz num ts labels data bif edge vac _ _ q CI M) as (q' & H1 & H2 & _).
    assert (H : In (Nat.min a b, Nat.max a b, q') (all_connections num maxref (find_domain_connections nx ny nz num labels data bif edge vac ts))).
    { unfold all_connections. apply in_or_app. left. apply in_map_iff. exists (Z.min (Z.of_nat a) (Z.of_nat b), Z.max (Z.of_nat a) (Z.of_nat b), q'). split; [|exact H1]. rewrite <- Nat2Z.inj_min, <- Nat2Z.inj_max, !Nat2Z.id. reflexivity. }
    destruct (U2 _ _ _ H) as (v & V1 & V2). exists v. split; [lra|exact V1].
  - intros i j v H. apply U1 in H. unfold all_connections in H. apply in_app_or in H as [H|H].
    + apply in_map_iff in H as ([[lo hi] q] & E & H). injection E as <- <- <-. destruct (C37_sound nx ny nz num ts labels data bif edge vac lo hi q CI H) as (L0 & L1 & L2 & a & b & AB & M). right. split; [lia|]. exists (Z.to_nat a), (Z.to_nat b). split; [destruct AB as [[-> ->]|[-> ->]]; auto|]. rewrite !Z2Nat.id by lia. destruct M as [M|(_ & M & _)]; auto.
    + apply in_map_iff in H as (a & E & H). injection E as <- <- <-. apply in_seq in H. left. split; [reflexivity|]. split; [lia|reflexivity].
Qed.
Print Assumptions C170_joined.

(** ** Example: the six voxels of [lab6] with a peak inside each basin. *)
Definition dat_peak : arr3 Q := row6 0%Q [2; 5; 3; 6; 3; 7]%Q.
Definition max_peak (a : nat) : Q := nth a [5; 6; 7]%Q 0%Q.
Definition cs_peak : list conn := all_connections 3 max_peak (find_domain_connections 6 1 1 3 lab6 dat_peak bif6 all6 none6 ts2).
Lemma six i : 0 <= i < 6 -> i = 0 \/ i = 1 \/ i = 2 \/ i = 3 \/ i = 4 \/ i = 5.
Proof. lia. Qed.
Example ex_conns : cs_peak = [(0, 1, 3%Q); (0, 2, 2%Q); (1, 2, 3%Q); (0, 0, 5%Q); (1, 1, 6%Q); (2, 2, 7%Q)]%nat.
Proof. vm_compute. reflexivity. Qed.
Example ex_peaks : conn_input 6 1 1 3 ts2 lab6 dat_peak /\ peaks 6 1 1 ts2 lab6 dat_peak max_peak.
Proof.
  split; [|split].
  - destruct conn_example_input as (H1 & H2 & H3 & H4 & H5 & H6 & _). do 6 (split; [assumption|]). apply row_cases. intros i Hi. destruct (six i Hi) as [->|[->|[->|[->|[->| ->]]]]]; apply Qltb_lt; reflexivity.
  - intros v a G. revert a. revert v G. apply (row_cases (fun v => forall a, value_at lab6 v = Z.of_nat a -> (value_at dat_peak v <= max_peak a)%Q)). intros i Hi a L. destruct (six i Hi) as [->|[->|[->|[->|[->| ->]]]]]; remember (Z.of_nat a) as z eqn:Z1; vm_compute in L; (assert (a = 0 \/ a = 1 \/ a = 2)%nat as [->|[->| ->]] by lia; try lia); apply Qle_bool_iff; reflexivity.
  - intros v s w a b G IS T LA LB N E. revert v G s IS w T a b LA LB N E. apply (row_cases (fun v => forall s, In s ts2 -> forall w, periodic_target 6 1 1 v s w -> forall a b, value_at lab6 v = Z.of_nat a -> value_at lab6 w = Z.of_nat b -> a <> b -> (value_at dat_peak v == max_peak a)%Q -> (value_at dat_peak w < value_at dat_peak v)%Q)).
    intros i Hi s [<-|[<-|[]]] w -> a b LA LB N E; (destruct (six i Hi) as [->|[->|[->|[->|[->| ->]]]]]; remember (Z.of_nat a) as z eqn:Z1; remember (Z.of_nat b) as z2 eqn:Z2; vm_compute in LA, LB; (assert (a = 0 \/ a = 1 \/ a = 2)%nat as [->|[->| ->]] by lia; try lia); (assert (b = 0 \/ b = 1 \/ b = 2)%nat as [->|[->| ->]] by lia; try lia; try congruence); (apply Qltb_lt; reflexivity) || (exfalso; vm_compute in E; discriminate)).
Qed.
Example ex_low mask a b q : meets 6 1 1 ts2 lab6 dat_peak none6 mask a b q -> (1 < q)%Q.
Proof.
  assert (D : forall v, in_grid 6 1 1 v -> (1 < value_at dat_peak v)%Q) by (apply row_cases; intros i Hi; destruct (six i Hi) as [->|[->|[->|[->|[->| ->]]]]]; apply Qltb_lt; reflexivity).
  intros (v & s & w & G & _ & _ & _ & T & _ & _ & _ & _ & _ & ->). destruct (target_back 6 1 1 v s w) as [GW _]; try lia; auto. destruct (Qlt_le_dec _ _); now apply D.
Qed.
Example ex_graph_peak : match find_domain_bifurcations 3 [0; 1; 2]%nat (fun _ _ => 0) max_peak 1 cs_peak 3 with Done r => map (fun d => (b_basins d, b_parent d)) r | _ => [] end =
  [([0; 1; 2]%nat, -1); ([0]%nat, 0); ([1]%nat, 0); ([2]%nat, 0)].
Proof. vm_compute. reflexivity. Qed.
