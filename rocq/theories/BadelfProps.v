(** C43, C44, C73-C78: BadELF voxel assignment. *)
From Coq Require Import QArith Qabs Lqa Lia ZifyBool ZifyNat.
From Verif Require Import Base GridModel GridProofs NeighModel RootsModel UnionModel ChargeModel ChargeProofs CoordModel CoordMerge BifProofs NearModel WeightModel RefineModel PlaneModel PlaneSpec PlaneInt PlaneVol PlaneProofs PlaneWrap PlaneProps BadelfModel BadelfSpec BadelfProofs BadelfOut BadelfPass BadelfTop.
Local Open Scope Z_scope.

(** ** C43: voxels inside a partition *)

(** An unlabelled voxel outside the vacuum gets the site of the first group of planes enclosing it, and
    stays unlabelled exactly when no group encloses it. *)
Theorem C43_assigned nx ny nz m planes mind vacuum labels i j k : grouped planes -> (forall x, In x planes -> 0 <= pt_site x) ->
  let p := grid_cart nx ny nz m (i, j, k) in
  let out := in_labels nx ny nz m planes mind vacuum labels i j k in
  (labels i j k <> -1 \/ vacuum i j k = true -> out = labels i j k) /\
  (labels i j k = -1 -> vacuum i j k = false ->
     (out = -1 /\ forall x, In x planes -> ~ encloses mind p planes x) \/
     (exists n x, nth_error planes n = Some x /\ out = pt_site x /\ encloses mind p planes x /\
        forall n' y, nth_error planes n' = Some y -> encloses mind p planes y -> same_part x y \/ (n < n')%nat)).
Proof.
  intros G POS p out. unfold out, in_labels. split.
  - intros H. destruct (negb (labels i j k =? -1) || vacuum i j k) eqn:E; [reflexivity|]. exfalso. apply orb_false_iff in E. destruct E as [E1 E2]. destruct H as [H|H]; [lia|congruence].
  - intros L V. rewrite L, V. cbn [Z.eqb negb orb]. change (-1 =? -1) with true. cbn [negb orb].
    pose proof (in_site_spec mind p planes G POS) as S. fold p. destruct (in_site mind p planes (-1) (-1) false) as [s|]; cbn in S.
    + right. destruct S as (n & x & X & <- & E & O). exists n, x. auto.
    + left. auto.
Qed.
Print Assumptions C43_assigned.

(** When the partitions enclosing the voxel all belong to one site, it is that site. *)
Theorem C43_only nx ny nz m planes mind vacuum labels i j k x : grouped planes -> (forall x, In x planes -> 0 <= pt_site x) ->
  let p := grid_cart nx ny nz m (i, j, k) in
  labels i j k = -1 -> vacuum i j k = false -> In x planes -> encloses mind p planes x ->
  (forall y, In y planes -> encloses mind p planes y -> pt_site y = pt_site x) ->
  in_labels nx ny nz m planes mind vacuum labels i j k = pt_site x.
Proof.
  intros G POS p L V IX EX ONLY. destruct (C43_assigned nx ny nz m planes mind vacuum labels i j k G POS) as [_ H]. fold p in H.
  destruct (H L V) as [[_ N]|(n & y & Y & -> & EY & _)]; [exfalso; now apply (N x)|]. apply ONLY; [now apply nth_error_In in Y|exact EY].
Qed.
Print Assumptions C43_only.

(** The test point is the voxel's position in real space. *)
Theorem C43_position nx ny nz m i j k :
  let '(a, b, c) := grid_cart nx ny nz m (i, j, k) in
  let '(a', b', c') := vmat (inject_Z i / inject_Z nx, inject_Z j / inject_Z ny, inject_Z k / inject_Z nz)%Q m in
  (a == a' /\ b == b' /\ c == c')%Q.
Proof.
  destruct m as [[[[a1 a2] a3] [[b1 b2] b3]] [[c1 c2] c3]]. cbn. repeat split; unfold Qdiv; ring.
Qed.
Print Assumptions C43_position.

Lemma wrapped_sorted order planes out : StronglySorted le (map pl_site planes) -> cell_wrapped order planes = Done out -> StronglySorted le (map w_site out).
Proof.
  intros S. unfold cell_wrapped. destruct (mark_trans order _) as [flags| |]; cbn [obind]; try discriminate. intros [= <-].
  rewrite map_map. set (f := filter _). assert (X : forall l, StronglySorted le (map (fun x : plane * (nat * (Z * Z * Z)) => pl_site (fst x)) l) -> forall g,
     StronglySorted le (map (fun x : plane * (nat * (Z * Z * Z)) => pl_site (fst x)) (filter g l))).
  { intros l. induction l as [|x t IH]; intros SL g; [constructor|]. inversion SL as [|? ? S1 F1]; subst. cbn [filter]. destruct (g x); [|now apply IH].
    cbn [map]. constructor; [now apply IH|]. rewrite Forall_forall in F1. apply Forall_forall. intros y Y. apply F1.
    apply in_map_iff in Y. destruct Y as (z & <- & Z). apply filter_In in Z. apply in_map_iff. exists z. split; [reflexivity|apply Z]. }
  rewrite (map_ext _ (fun x : plane * (nat * (Z * Z * Z)) => pl_site (fst x))) by (intros [p [i t]]; reflexivity). apply X. clear X f.
  unfold all_pairs. generalize (combine (seq 0 27) transformations) as ts. intros ts. induction planes as [|p t IH]; [constructor|].
  inversion S as [|? ? S1 F1]; subst. cbn [list_prod]. rewrite map_app, map_map. cbn [fst]. rewrite Forall_forall in F1.
  assert (HI : forall y, In y (map (fun x : plane * (nat * (Z * Z * Z)) => pl_site (fst x)) (list_prod t ts)) -> (pl_site p <= y)%nat).
  { intros y Y. apply in_map_iff in Y. destruct Y as ([q u] & <- & Y). apply in_prod_iff in Y. apply F1. cbn. apply in_map_iff. exists q. split; [reflexivity|apply Y]. }
  clear F1 S. induction ts as [|u us IHu] at 1; cbn [map app]; [now apply IH|]. constructor; [exact IHu|]. apply Forall_forall. intros y Y. apply in_app_or in Y.
  destruct Y as [Y|Y]; [|now apply HI]. apply in_map_iff in Y. destruct Y as (? & <- & _). lia.
Qed.

(** The planes arrive grouped, each with its own site, when the neighbour list is sorted by site
    (it comes out of [np.unique], elf_radii.py line 389). *)
Theorem C43_grouped root m order planes ws perm : StronglySorted le (map pl_site planes) -> cell_wrapped order planes = Done ws -> lexsorts perm ws ->
  let parts := order_planes root m perm ws in
  grouped parts /\ (forall x, In x parts -> 0 <= pt_site x) /\
  Permutation parts (map (fun w => Part (Z.of_nat (w_site w)) (Z.of_nat (w_trans w)) (plane_eqn root m w)) ws).
Proof.
  intros S C L parts. pose proof (wrapped_sorted order planes ws S C) as SW. split; [now apply order_grouped|].
  pose proof (order_perm root m perm ws L SW) as P. split; [|exact P]. intros x X. apply (Permutation_in _ P) in X.
  apply in_map_iff in X. destruct X as (w & <- & _). cbn. lia.
Qed.
Print Assumptions C43_grouped.

(** Charges and volumes: sums over the voxels carrying each label. *)
Theorem C43_totals nx ny nz data labels planes vacuum mind num m : (forall x, In x planes -> 0 <= pt_site x < Z.of_nat num) -> grouped planes ->
  (forall v, In v (voxels nx ny nz) -> -1 <= rd3 labels v < Z.of_nat num) ->
  exists ch vo, let out := in_labels nx ny nz m planes mind vacuum labels in
    in_partition nx ny nz data labels planes vacuum mind num m = Done (out, ch, vo) /\ length ch = num /\ length vo = num /\
    forall s, (s < num)%nat ->
      (nth s ch 0 == site_sum (rd3 data) (rd3 out) (Z.of_nat s) (voxels nx ny nz))%Q /\
      (nth s vo 0 == site_sum (fun _ => 1) (rd3 out) (Z.of_nat s) (voxels nx ny nz))%Q.
Proof.
  intros RP G RL. set (out := in_labels nx ny nz m planes mind vacuum labels).
  assert (RO : forall v, In v (voxels nx ny nz) -> -1 <= rd3 out v < Z.of_nat num).
  { intros [[i j] k] V. specialize (RL _ V). cbn in RL |- *. unfold out.
    destruct (C43_assigned nx ny nz m planes mind vacuum labels i j k G) as [A B]; [intros x X; now apply RP|].
    destruct (Z.eq_dec (labels i j k) (-1)) as [L|L]; [|rewrite A by auto; exact RL].
    destruct (vacuum i j k) eqn:VC; [rewrite A by auto; exact RL|]. destruct (B L eq_refl) as [[E _]|(n & x & X & E & _)]; rewrite E; [lia|].
    apply nth_error_In in X. specialize (RP x X). lia. }
  destruct (in_totals_spec data out num (voxels nx ny nz) (repeat 0%Q num) (repeat 0%Q num)) as (ch & vo & D & L1 & L2 & S);
    [apply repeat_length|apply repeat_length|exact RO|].
  exists ch, vo. cbv zeta. unfold in_partition. fold out. rewrite D. cbn [obind]. split; [reflexivity|]. split; [exact L1|]. split; [exact L2|].
  intros s Hs. destruct (S s Hs) as [A B]. rewrite A, B, !nth_repeat0. split; ring.
Qed.
Print Assumptions C43_totals.

(** Two boxes side by side: voxels left and right of the cut, none on it. *)
Definition slabs : list part :=
  [Part 0 0 (1, 0, 0, - (2 # 1))%Q; Part 0 0 (-1, 0, 0, - (1 # 1))%Q; Part 1 0 (-1, 0, 0, 2 # 1)%Q; Part 1 0 (1, 0, 0, - (5 # 1))%Q].
Definition cube4 : mat := ((4, 0, 0), (0, 4, 0), (0, 0, 4))%Q.
Example C43_ex : map (fun i => in_labels 4 4 4 cube4 slabs (1 # 2) (fun _ _ _ => false) (fun _ _ _ => -1) i 1 1) [0; 1; 2; 3] = [0; 0; -1; 1].
Proof. vm_compute. reflexivity. Qed.
Example C43_ex_grouped : grouped slabs /\ encloses (1 # 2) (grid_cart 4 4 4 cube4 (3, 1, 1)) slabs (Part 1 0 (1, 0, 0, 0)%Q).
Proof.
  split.
  - intros i j k x y z [IJ JK] X Y Z [S1 S2].
    destruct i as [|[|[|[|i]]]], j as [|[|[|[|j]]]], k as [|[|[|[|k]]]]; try lia; cbn in X, Y, Z; try (destruct k; discriminate);
      injection X as <-; injection Y as <-; injection Z as <-; cbn in S1, S2; try discriminate; split; reflexivity.
  - intros y [<-|[<-|[<-|[<-|[]]]]] [S _]; cbn [pt_site] in S; try discriminate S; apply test_spec; vm_compute; reflexivity.
Qed.

(** ** C44: voxels on or outside the cuts *)

(** The shares of one voxel: over the first shells holding a labelled voxel, in proportion to the sums of
    inverse distances; nothing when no shell up to the last break holds one. *)
Theorem C44_fractions nx ny nz max_label argsort labels v trans breaks : (forall l, Permutation (argsort l) (seq 0 (length l))) ->
  (forall v, -1 <= rd3 labels v) -> shells trans breaks ->
  let row := gather nx ny nz max_label argsort labels v trans 0 breaks (search0 max_label) in
  (row = [] /\ forall b, In b breaks -> ~ hit nx ny nz max_label labels v (firstn (S b) trans)) \/
  (exists b, reached nx ny nz max_label labels v trans breaks b /\ let near := firstn (S b) trans in
     row <> [] /\ NoDup (map fst row) /\ (length row <= 10)%nat /\ (qsum (map snd row) == 1)%Q /\
     (forall s f, In (s, f) row -> (0 < f)%Q /\ exists d, In d near /\ usable nx ny nz max_label labels v d /\ rd3 labels (neigh nx ny nz v (fst d)) = s) /\
     (few_sites nx ny nz max_label labels v near -> forall s, 0 <= s < Z.of_nat max_label ->
        (share s row == fraction nx ny nz max_label labels v near s)%Q)).
Proof.
  intros SO LOW (P & SS & _ & RB) row. destruct (gather_spec nx ny nz max_label argsort SO labels LOW v trans breaks P SS RB) as [(b & RE & G)|[N E]].
  - right. exists b. split; [exact RE|]. fold row in G. destruct G as (G1 & G2 & G3 & G4 & G5 & G6). cbv zeta. split; [exact G1|]. split; [exact G2|]. split; [exact G3|].
    split; [exact G5|]. split.
    + intros s f I. destruct (G4 s f I) as (A & B & d & D & E). split; [exact A|]. exists d. unfold usable. rewrite E. auto.
    + intros FS s R. exact (proj1 (G6 FS s R)).
  - left. auto.
Qed.
Print Assumptions C44_fractions.

(** Nothing is lost: the totals grow by the charge and the number of the voxels shared out. *)
Theorem C44_conserved nx ny nz max_label argsort data labels vacuum trans breaks ch vo lab' ch' vo' :
  (forall l, Permutation (argsort l) (seq 0 (length l))) -> (forall v, -1 <= rd3 labels v) -> shells trans breaks ->
  outside nx ny nz max_label argsort data labels vacuum trans breaks ch vo = Done (lab', ch', vo') ->
  (forall v, In v (open_voxels nx ny nz labels vacuum) -> exists b, In b breaks /\ hit nx ny nz max_label labels v (firstn (S b) trans)) ->
  (qsum ch' == qsum ch + qsum (map (rd3 data) (open_voxels nx ny nz labels vacuum)))%Q /\
  (qsum vo' == qsum vo + inject_Z (Z.of_nat (length (open_voxels nx ny nz labels vacuum))))%Q.
Proof.
  intros SO LOW SH H AF. destruct (conserved nx ny nz max_label argsort SO labels LOW vacuum trans breaks SH data ch vo lab' ch' vo' H AF) as (_ & _ & A & B).
  split; [exact A|]. rewrite B. apply Qplus_comp; [reflexivity|]. now rewrite qsum_ones.
Qed.
Print Assumptions C44_conserved.

(** When one site clearly has the largest share at every voxel, the voxel gets that label and every site
    gets its exact shares. *)
Theorem C44_shares nx ny nz max_label argsort data labels vacuum trans breaks ch vo num (bf : voxel -> nat) (sf : voxel -> Z) :
  (forall l, Permutation (argsort l) (seq 0 (length l))) -> (forall v, -1 <= rd3 labels v) -> shells trans breaks ->
  (0 < num)%nat -> (max_label <= num)%nat -> length ch = num -> length vo = num ->
  let points := open_voxels nx ny nz labels vacuum in
  let F := fun v s => fraction nx ny nz max_label labels v (firstn (S (bf v)) trans) s in
  (forall v, In v points -> reached nx ny nz max_label labels v trans breaks (bf v) /\ few_sites nx ny nz max_label labels v (firstn (S (bf v)) trans) /\
     0 <= sf v < Z.of_nat max_label /\ forall t, 0 <= t < Z.of_nat max_label -> t <> sf v -> (F v t + (1 # 1000000) < F v (sf v))%Q) ->
  exists lab' ch' vo', outside nx ny nz max_label argsort data labels vacuum trans breaks ch vo = Done (lab', ch', vo') /\
    length ch' = num /\ length vo' = num /\
    (forall v, In v points -> rd3 lab' v = sf v) /\ (forall v, ~ In v points -> rd3 lab' v = rd3 labels v) /\
    (forall t, (t < max_label)%nat ->
      (nth t ch' 0 == nth t ch 0 + qsum (map (fun v => rd3 data v * F v (Z.of_nat t)) points))%Q /\
      (nth t vo' 0 == nth t vo 0 + qsum (map (fun v => F v (Z.of_nat t)) points))%Q) /\
    (forall t, (max_label <= t < num)%nat -> (nth t ch' 0 == nth t ch 0)%Q /\ (nth t vo' 0 == nth t vo 0)%Q).
Proof.
  intros SO LOW SH N ML LC LV points F CL.
  destruct (clear_stage nx ny nz max_label argsort SO labels LOW vacuum trans breaks SH data ch vo num bf sf N ML LC LV CL) as (lab' & ch' & vo' & D & L1 & L2 & A & B & S).
  exists lab', ch', vo'. split; [exact D|]. split; [exact L1|]. split; [exact L2|]. split; [exact A|]. split; [exact B|]. split; intros t Ht.
  - destruct (S t ltac:(lia)) as [X Y]. replace (Nat.ltb t max_label) with true in X, Y by lia. split; [exact X|exact Y].
  - destruct (S t ltac:(lia)) as [X Y]. replace (Nat.ltb t max_label) with false in X, Y by lia. rewrite X, Y, !qsum_map_zero. split; ring.
Qed.
Print Assumptions C44_shares.

(** The whole assignment of a positive density succeeds, leaves labelled voxels alone, labels the others
    with a label found nearby, and conserves charge and volume if every voxel finds one. *)
Theorem C44_whole nx ny nz argsort data labels planes vacuum mind num m trans breaks max_label :
  0 < nx -> 0 < ny -> 0 < nz -> (0 < num)%nat -> (max_label <= num)%nat ->
  (forall l, Permutation (argsort l) (seq 0 (length l))) -> shells trans breaks ->
  grouped planes -> (forall x, In x planes -> 0 <= pt_site x < Z.of_nat num) ->
  (forall v, -1 <= rd3 labels v < Z.of_nat num) -> (forall v, In v (voxels nx ny nz) -> (0 < rd3 data v)%Q) ->
  let inl := in_labels nx ny nz m planes mind vacuum labels in
  exists lab ch vo, get_badelf_assignments nx ny nz argsort data labels planes vacuum mind num m trans breaks max_label = Done (lab, ch, vo) /\
    (forall v, In v (voxels nx ny nz) -> rd3 inl v <> -1 \/ rd3 vacuum v = true -> rd3 lab v = rd3 inl v) /\
    (forall v, In v (open_voxels nx ny nz inl vacuum) ->
       rd3 lab v = -1 \/ exists d, In d trans /\ usable nx ny nz max_label inl v d /\ rd3 lab v = rd3 inl (neigh nx ny nz v (fst d))) /\
    ((forall v, In v (open_voxels nx ny nz inl vacuum) -> exists b, In b breaks /\ hit nx ny nz max_label inl v (firstn (S b) trans)) ->
     (forall v, In v (voxels nx ny nz) -> rd3 vacuum v = true -> rd3 labels v = -1) ->
     (qsum ch == qsum (map (fun v => if rd3 vacuum v then 0 else rd3 data v) (voxels nx ny nz)))%Q /\
     (qsum vo == qsum (map (fun v => if rd3 vacuum v then 0 else 1) (voxels nx ny nz)))%Q).
Proof.
  intros Hx Hy Hz N ML SO SH G RP RL DP inl.
  assert (POS : forall x, In x planes -> 0 <= pt_site x) by (intros x X; apply RP in X; lia).
  assert (RI : forall v, -1 <= rd3 inl v < Z.of_nat num).
  { intros [[i j] k]. pose proof (RL (i, j, k)) as R. cbn in R |- *. destruct (C43_assigned nx ny nz m planes mind vacuum labels i j k G POS) as [A B].
    destruct (Z.eq_dec (labels i j k) (-1)) as [L|L]; [|unfold inl; rewrite A by auto; exact R].
    destruct (vacuum i j k) eqn:VC; [unfold inl; rewrite A by auto; exact R|]. unfold inl. destruct (B L eq_refl) as [[E _]|(n & x & X & E & _)]; rewrite E; [lia|].
    apply nth_error_In in X. specialize (RP x X). lia. }
  destruct (C43_totals nx ny nz data labels planes vacuum mind num m RP G (fun v _ => RL v)) as (ch & vo & D & L1 & L2 & S). fold inl in D, S.
  unfold get_badelf_assignments. rewrite D. cbn [obind].
  assert (PV : forall v, In v (open_voxels nx ny nz inl vacuum) -> In v (voxels nx ny nz)) by (intros v V; apply filter_In in V; apply V).
  assert (LOW : forall v, -1 <= rd3 inl v) by (intros v; apply RI).
  destruct (succeeds nx ny nz max_label argsort SO inl LOW vacuum trans breaks SH data ch vo num N ML L1 L2) as (lab & ch' & vo' & O & U & W).
  - intros v V. apply Qlt_le_weak, DP. now apply PV.
  - intros v d V Dd US. unfold usable in US. destruct (S (Z.to_nat (rd3 inl (neigh nx ny nz v (fst d)))) ltac:(lia)) as [A _]. rewrite A.
    unfold site_sum. set (w := neigh nx ny nz v (fst d)) in *.
    assert (WV : In w (voxels nx ny nz)).
    { apply in_voxels. unfold w, neigh, in_grid. destruct v as [[i j] k], (fst d) as [[a b] c]. pose proof (Z.mod_pos_bound (i + a) nx Hx).
      pose proof (Z.mod_pos_bound (j + b) ny Hy). pose proof (Z.mod_pos_bound (k + c) nz Hz). lia. }
    apply Qlt_le_trans with (rd3 data w); [now apply DP|]. apply qsum_ge_elem.
    + intros x X. apply in_map_iff in X. destruct X as (u & <- & Uu). destruct (rd3 inl u =? _); [apply Qlt_le_weak; now apply DP|lra].
    + apply in_map_iff. exists w. split; [|exact WV]. replace (rd3 inl w =? Z.of_nat (Z.to_nat (rd3 inl w))) with true by lia. reflexivity.
  - exists lab, ch', vo'. split; [exact O|]. split; [|split; [exact W|]].
    + intros v V H. apply U. intros I. apply filter_In in I. destruct I as [_ I]. apply andb_true_iff in I. destruct I as [I1 I2].
      destruct H as [H|H]; [lia|rewrite H in I2; discriminate].
    + intros AF VAC. destruct (conserved nx ny nz max_label argsort SO inl LOW vacuum trans breaks SH data ch vo lab ch' vo' O AF) as (_ & _ & A & B).
      assert (TOT : forall (l : list Q) (h : voxel -> Q), length l = num -> (forall s, (s < num)%nat -> (nth s l 0 == site_sum h (rd3 inl) (Z.of_nat s) (voxels nx ny nz))%Q) ->
        (qsum l + qsum (map h (open_voxels nx ny nz inl vacuum)) == qsum (map (fun v => if rd3 vacuum v then 0 else h v) (voxels nx ny nz)))%Q).
      { intros l h LL E. assert (E1 : (qsum l == qsum (map (fun v => if rd3 inl v =? -1 then 0 else h v) (voxels nx ny nz)))%Q).
        { rewrite <- (map_nth_seq 0%Q l), LL. rewrite (qsum_map_ext (fun i => nth i l 0%Q) (fun s => site_sum h (rd3 inl) (Z.of_nat s) (voxels nx ny nz))) by (intros s Hs; apply in_seq in Hs; apply E; lia).
          unfold site_sum. rewrite (qsum_swap (fun (s : nat) v => if rd3 inl v =? Z.of_nat s then h v else 0%Q)). apply qsum_map_ext. intros v V. specialize (RI v).
          destruct (rd3 inl v =? -1) eqn:Em.
          - etransitivity; [apply (qsum_map_ext _ (fun _ => 0%Q))|apply qsum_map_zero]. intros s _. replace (rd3 inl v =? Z.of_nat s) with false by lia. reflexivity.
          - rewrite (qsum_map_ext _ (fun s => if Nat.eqb (Z.to_nat (rd3 inl v)) s then h v else 0%Q)); [apply qsum_indicator; lia|].
            intros s _. destruct (Nat.eqb_spec (Z.to_nat (rd3 inl v)) s) as [<-|NE].
            + replace (rd3 inl v =? Z.of_nat (Z.to_nat (rd3 inl v))) with true by lia. reflexivity.
            + replace (rd3 inl v =? Z.of_nat s) with false by lia. reflexivity. }
        rewrite E1. assert (E2 : forall ls, (forall v, In v ls -> In v (voxels nx ny nz)) ->
          (qsum (map (fun v => if rd3 inl v =? -1 then 0 else h v) ls) + qsum (map h (filter (fun v => (rd3 inl v =? -1) && negb (rd3 vacuum v)) ls)) ==
           qsum (map (fun v => if rd3 vacuum v then 0 else h v) ls))%Q).
        { induction ls as [|v ls IH]; intros IV; [reflexivity|]. cbn [map filter].
          assert (IH' := IH (fun w Hw => IV w (or_intror Hw))). pose proof (IV v (or_introl eq_refl)) as Vv.
          destruct (rd3 vacuum v) eqn:Vc.
          - assert (E0 : rd3 inl v = -1).
            { destruct v as [[i j] k]. pose proof (VAC _ Vv Vc) as VL. cbn in Vc, VL |- *. destruct (C43_assigned nx ny nz m planes mind vacuum labels i j k G POS) as [Aa _].
              unfold inl. rewrite Aa by auto. exact VL. }
            rewrite E0. change (-1 =? -1) with true. cbn [andb negb]. rewrite !qsum_cons, <- IH'. ring.
          - cbn [negb]. rewrite andb_true_r. destruct (rd3 inl v =? -1); cbn [map]; rewrite !qsum_cons, <- IH'; ring. }
        apply E2. auto. }
      split.
      * rewrite A. apply (TOT ch (rd3 data) L1). intros s Hs. now apply S.
      * rewrite B. apply (TOT vo (fun _ => 1%Q) L2). intros s Hs. now apply S.
Qed.
Print Assumptions C44_whole.

(** *** Examples *)
Definition read_line (o : outcome (arr3 Z * list Q * list Q)) (l : list Z) : option (list Z * list Q * list Q) :=
  match o with Done (lab, ch, vo) => Some (map (fun k => lab 0 0 k) l, map Qred ch, map Qred vo) | _ => None end.
Definition on_line {A} (d : A) (l : list A) : arr3 A := fun _ _ k => nth (Z.to_nat k) l d.
Definition line_trans : list (voxel * Q) := [((0, 0, -1), 1%Q); ((0, 0, 1), 1%Q); ((0, 0, -2), 2%Q); ((0, 0, 2), 2%Q)].

(** One open voxel between sites 0 and 1: shares 2/3 and 1/3. *)
Example C44_ex : read_line (outside 1 1 5 2 (fun l => seq 0 (length l)) (on_line 0%Q [1; 6; 1; 1; 1]%Q) (on_line (-1) [0; -1; 1; 0; 0]) (fun _ _ _ => false)
    line_trans [3%nat] [3; 1]%Q [3; 1]%Q) [0; 1; 2; 3; 4] = Some ([0; 0; 1; 0; 0], [7; 3]%Q, [11 # 3; 4 # 3]%Q).
Proof. vm_compute. reflexivity. Qed.
Example C44_ex_fraction : (fraction 1 1 5 2 (on_line (-1) [0; -1; 1; 0; 0])%Z (0, 0, 1)%Z (firstn 4 line_trans) 0%Z == 2 # 3)%Q.
Proof. vm_compute. reflexivity. Qed.
Example C44_ex_whole : read_line (get_badelf_assignments 1 1 4 (fun l => seq 0 (length l)) (on_line 0%Q [1; 2; 3; 4]%Q) (fun _ _ _ => -1)
    [Part 0 0 (0, 0, 1, - (1 # 1))%Q; Part 0 0 (0, 0, -1, - (1 # 1))%Q; Part 1 0 (0, 0, -1, 2 # 1)%Q; Part 1 0 (0, 0, 1, - (5 # 1))%Q]
    (fun _ _ _ => false) (1 # 2) 2 ((1, 0, 0), (0, 1, 0), (0, 0, 4))%Q [((0, 0, -1), 1%Q); ((0, 0, 1), 1%Q); ((0, 0, 2), 2%Q)] [1%nat] 2) [0; 1; 2; 3]
  = Some ([0; 0; 1; 1], [3; 7]%Q, [2; 2]%Q).
Proof. vm_compute. reflexivity. Qed.

Lemma shells_line breaks : StronglySorted lt breaks -> breaks <> [] -> (forall b, In b breaks -> (b < 4)%nat) -> shells line_trans breaks.
Proof. intros S N B. split; [intros e [<-|[<-|[<-|[<-|[]]]]]; reflexivity|]. auto. Qed.

Lemma argsort1 (argsort : list Q -> list nat) x : (forall l, Permutation (argsort l) (seq 0 (length l))) -> argsort [x] = [0%nat].
Proof. intros SO. apply Permutation_length_1_inv, Permutation_sym. exact (SO [x]). Qed.

(** Computes the two stages before the tied voxels are sorted. *)
Ltac run_outside :=
  unfold outside;
  match goal with |- context [gather_all ?a ?b ?c ?d ?e ?f ?g ?h ?i] =>
    let t := eval vm_compute in (gather_all a b c d e f g h i) in change (gather_all a b c d e f g h i) with t end;
  cbn [obind];
  match goal with |- context [first_pass ?a ?b ?c ?d] =>
    let t := eval vm_compute in (first_pass a b c d) in change (first_pass a b c d) with t end;
  cbn [obind];
  match goal with |- context [map (fun '(v, _) => rd3 ?data v) ?l] =>
    let t := eval vm_compute in (map (fun '(v, _) => rd3 data v) l) in change (map (fun '(v, _) => rd3 data v) l) with t end.

(** ** C73: voxels with equal best shares are given away with another voxel's shares. *)
Theorem C73_tied_refuted : exists (nx ny nz : Z) max_label data labels vacuum trans breaks ch vo (bf : voxel -> nat),
  shells trans breaks /\ (forall v, -1 <= rd3 labels v < Z.of_nat max_label) /\ length ch = max_label /\
  (forall v, In v (open_voxels nx ny nz labels vacuum) -> reached nx ny nz max_label labels v trans breaks (bf v) /\
     few_sites nx ny nz max_label labels v (firstn (S (bf v)) trans)) /\
  forall argsort, (forall l, Permutation (argsort l) (seq 0 (length l))) ->
  exists lab' ch' vo', outside nx ny nz max_label argsort data labels vacuum trans breaks ch vo = Done (lab', ch', vo') /\
  exists t, (t < max_label)%nat /\
    ~ (nth t ch' 0 == nth t ch 0 + qsum (map (fun v => rd3 data v * fraction nx ny nz max_label labels v (firstn (S (bf v)) trans) (Z.of_nat t))
                                             (open_voxels nx ny nz labels vacuum)))%Q.
Proof.
  exists 1, 1, 5, 2%nat, (on_line 0%Q [1; 4; 1; 2; 1]%Q), (on_line (-1) [0; -1; 1; -1; 1]), (fun _ _ _ => false), line_trans, [1%nat], [1; 2]%Q, [1; 2]%Q, (fun _ => 1%nat).
  split; [apply shells_line; [repeat constructor|discriminate|intros b [<-|[]]; lia]|]. split.
  { intros [[i j] k]. cbn [rd3]. unfold on_line. destruct (Z.to_nat k) as [|[|[|[|[|n]]]]]; cbn; try lia. destruct n; cbn; lia. }
  split; [reflexivity|]. split.
  { intros v V. assert (E : open_voxels 1 1 5 (on_line (-1) [0; -1; 1; -1; 1]) (fun _ _ _ => false) = [(0, 0, 1); (0, 0, 3)]) by (vm_compute; reflexivity).
    rewrite E in V. split.
    - split; [now left|]. split; [|intros b' [<-|[]]; lia].
      destruct V as [<-|[<-|[]]]; (exists ((0, 0, 1), 1%Q); split; [right; now left|]); split; vm_compute; congruence.
    - exists [0; 1]. split; [repeat constructor; cbn; intuition discriminate|]. split; [cbn; lia|].
      destruct V as [<-|[<-|[]]]; intros d D U; (destruct D as [<-|[<-|[]]]); vm_compute; auto. }
  intros argsort SO. pose proof (argsort1 argsort 4%Q SO) as A1. eexists _, _, _. split.
  { run_outside. rewrite A1.
    vm_compute. reflexivity. }
  exists 0%nat. split; [lia|]. vm_compute. discriminate.
Qed.
Print Assumptions C73_tied_refuted.

(** ** C74: such a voxel may be labelled with a site that has a smaller share than another. *)
Definition star_labels : arr3 Z := fun i j k =>
  if (i =? 1) && (j =? 1) then (if k =? 2 then 2 else -1)
  else if (j =? 1) && (k =? 1) then 0 else if (i =? 1) && (k =? 1) then 1 else 2.
Definition star_vacuum : arr3 bool := fun i j k => (i =? 1) && (j =? 1) && (k =? 0).
Definition star_data : arr3 Q := fun i j k => if star_labels i j k =? 2 then 10%Q else if star_labels i j k =? -1 then 1%Q else (1 # 2)%Q.
Definition star_trans : list (voxel * Q) :=
  [((-1, 0, 0), 1%Q); ((1, 0, 0), 1%Q); ((0, -1, 0), 1%Q); ((0, 1, 0), 1%Q); ((0, 0, -1), 1%Q); ((0, 0, 1), 1%Q); ((1, 1, 0), 3 # 2)].

Theorem C74_label_refuted : exists (nx ny nz : Z) max_label data labels vacuum trans breaks ch vo,
  shells trans breaks /\ (forall v, -1 <= rd3 labels v < Z.of_nat max_label) /\
  (forall s, (s < max_label)%nat -> (nth s ch 0 == site_sum (rd3 data) (rd3 labels) (Z.of_nat s) (voxels nx ny nz))%Q) /\
  forall argsort, (forall l, Permutation (argsort l) (seq 0 (length l))) ->
  exists lab' ch' vo', outside nx ny nz max_label argsort data labels vacuum trans breaks ch vo = Done (lab', ch', vo') /\
  exists v b s, In v (open_voxels nx ny nz labels vacuum) /\ reached nx ny nz max_label labels v trans breaks b /\ rd3 lab' v <> -1 /\
    (fraction nx ny nz max_label labels v (firstn (S b) trans) (rd3 lab' v) + (1 # 10) < fraction nx ny nz max_label labels v (firstn (S b) trans) s)%Q.
Proof.
  exists 3, 3, 3, 3%nat, star_data, star_labels, star_vacuum, star_trans, [5%nat], [1; 1; 210]%Q, [2; 2; 21]%Q.
  split.
  { split; [|split; [repeat constructor|split; [discriminate|intros b [<-|[]]; cbn; lia]]]. intros e E.
    repeat (destruct E as [<-|E]; [reflexivity|]). destruct E. }
  split.
  { intros [[i j] k]. cbn [rd3]. unfold star_labels. destruct ((i =? 1) && (j =? 1)); [destruct (k =? 2)|destruct ((j =? 1) && (k =? 1)); [|destruct ((i =? 1) && (k =? 1))]]; lia. }
  split.
  { intros s Hs. destruct s as [|[|[|s]]]; [| | |lia]; vm_compute; reflexivity. }
  intros argsort SO. pose proof (argsort1 argsort 1%Q SO) as A1. eexists _, _, _. split.
  { run_outside. rewrite A1. vm_compute. reflexivity. }
  exists (1, 1, 1), 5%nat, 0. split; [vm_compute; auto|]. split.
  { split; [now left|]. split; [|intros b' [<-|[]]; lia]. exists ((-1, 0, 0), 1%Q). split; [now left|]. split; vm_compute; congruence. }
  split; [vm_compute; discriminate|]. vm_compute. reflexivity.
Qed.
Print Assumptions C74_label_refuted.

(** ** C75: with more than ten sites the ten smallest shares are kept. *)
Definition edges12 : list (voxel * Q) :=
  map (fun d => (d, 1%Q)) [(-1, -1, 0); (-1, 1, 0); (1, -1, 0); (1, 1, 0); (-1, 0, -1); (-1, 0, 1); (1, 0, -1); (1, 0, 1); (0, -1, -1); (0, -1, 1); (0, 1, -1); (0, 1, 1)].
Definition edge_labels : arr3 Z := fun i j k =>
  match find (fun '((a, b, c), _) => (a =? i) && (b =? j) && (c =? k))
    (combine (map (fun '((a, b, c), _) => (1 + a, 1 + b, 1 + c)) edges12) [0; 0; 1; 2; 3; 4; 5; 6; 7; 8; 9; 10]) with
  | Some (_, l) => l | None => -1 end.

Theorem C75_ten_refuted : exists (nx ny nz : Z) max_label labels trans breaks v b s,
  shells trans breaks /\ reached nx ny nz max_label labels v trans breaks b /\
  (forall t, 0 <= t < Z.of_nat max_label -> t <> s ->
     (fraction nx ny nz max_label labels v (firstn (S b) trans) t < fraction nx ny nz max_label labels v (firstn (S b) trans) s)%Q) /\
  forall argsort, sorts argsort -> ~ In s (map fst (gather nx ny nz max_label argsort labels v trans 0 breaks (search0 max_label))).
Proof.
  exists 3, 3, 3, 11%nat, edge_labels, (edges12 ++ [((2, 0, 0), 2%Q)]), [11%nat], (1, 1, 1), 11%nat, 0.
  split.
  { split; [|split; [repeat constructor|split; [discriminate|intros b [<-|[]]; cbn; lia]]]. intros e E. cbn in E.
    repeat (destruct E as [<-|E]; [reflexivity|]). destruct E. }
  split.
  { split; [now left|]. split; [|intros b' [<-|[]]; lia]. exists ((-1, -1, 0), 1%Q). split; [now left|]. split; vm_compute; congruence. }
  split.
  { intros t R NT. assert (C : In t [1; 2; 3; 4; 5; 6; 7; 8; 9; 10]) by (cbn; lia). repeat (destruct C as [<-|C]; [vm_compute; reflexivity|]). destruct C. }
  intros argsort SO. 
  assert (E : gather 3 3 3 11 argsort edge_labels (1, 1, 1) (edges12 ++ [((2, 0, 0), 2%Q)]) 0 [11%nat] (search0 11) =
    condense argsort (fold_left (look 3 3 3 11 edge_labels (1, 1, 1)) edges12 (search0 11))) by (vm_compute; reflexivity).
  rewrite E. clear E.
  set (st := fold_left (look 3 3 3 11 edge_labels (1, 1, 1)) edges12 (search0 11)).
  assert (ES : s_sites st = [0; 1; 2; 3; 4; 5; 6; 7; 8; 9; 10]) by (vm_compute; reflexivity).
  unfold condense. set (red := map (fun s => nth (Z.to_nat s) (s_counts st) 0%Q) (s_sites st)).
  assert (LR : length red = 11%nat) by (vm_compute; reflexivity). rewrite LR. change (Nat.ltb 10 11) with true. cbv iota.
  destruct (SO red) as [P S]. rewrite LR in P. intros I.
  assert (I2 : In 0 (map (fun i => nth i (s_sites st) 0) (firstn 10 (argsort red)))).
  { apply in_map_iff in I. destruct I as ([a f] & Ea & I). cbn in Ea. subst a. now apply in_combine_l in I. }
  apply in_map_iff in I2. destruct I2 as (i & Ei & I2). rewrite ES in Ei.
  assert (LA : length (argsort red) = 11%nat) by (rewrite (Permutation_length P); reflexivity).
  assert (Ri : In i (seq 0 11)) by (apply (Permutation_in _ P); rewrite <- (firstn_skipn 10 (argsort red)); apply in_or_app; now left).
  assert (i = 0)%nat.
  { apply in_seq in Ri. destruct i as [|[|[|[|[|[|[|[|[|[|[|i]]]]]]]]]]]; cbn in Ei; try discriminate; [reflexivity|lia]. }
  subst i. apply In_nth_error in I2. destruct I2 as (p & Ep).
  assert (Lp : (p < 10)%nat) by (assert (p < length (firstn 10 (argsort red)))%nat by (apply nth_error_Some; congruence); rewrite firstn_length in H; lia).
  assert (Ep' : nth_error (argsort red) p = Some 0%nat) by (rewrite <- (firstn_skipn 10 (argsort red)), nth_error_app1; [exact Ep|rewrite firstn_length; lia]).
  destruct (nth_error (argsort red) 10) as [q|] eqn:Eq; [|apply nth_error_None in Eq; lia].
  assert (NQ : q <> 0%nat).
  { intros ->. assert (ND : NoDup (argsort red)) by (eapply Permutation_NoDup; [apply Permutation_sym; exact P|apply seq_NoDup]).
    rewrite NoDup_nth_error in ND. specialize (ND p 10%nat ltac:(lia)). rewrite Ep', Eq in ND. specialize (ND eq_refl). lia. }
  assert (Rq : In q (seq 0 11)) by (apply (Permutation_in _ P); now apply nth_error_In in Eq).
  assert (C : (nth 0 red 0 <= nth q red 0)%Q).
  { apply (sorted_nth Qle (map (fun t => nth t red 0%Q) (argsort red)) p 10); [exact S|lia| |]; rewrite nth_error_map; [rewrite Ep'|rewrite Eq]; reflexivity. }
  apply in_seq in Rq. revert C. destruct q as [|[|[|[|[|[|[|[|[|[|[|q]]]]]]]]]]]; try congruence; try lia; vm_compute; congruence.
Qed.
Print Assumptions C75_ten_refuted.

(** ** C76: the last shell is never used, so the charge of an isolated voxel is lost. *)
Theorem C76_lost_refuted : exists (nx ny nz : Z) max_label data labels vacuum trans breaks ch vo,
  shells trans breaks /\ (forall v, -1 <= rd3 labels v < Z.of_nat max_label) /\
  (forall v, In v (open_voxels nx ny nz labels vacuum) -> hit nx ny nz max_label labels v trans) /\
  forall argsort, (forall l, Permutation (argsort l) (seq 0 (length l))) ->
  exists lab' ch' vo', outside nx ny nz max_label argsort data labels vacuum trans breaks ch vo = Done (lab', ch', vo') /\
    (exists v, In v (open_voxels nx ny nz labels vacuum) /\ rd3 lab' v = -1) /\
    ~ (qsum ch' == qsum ch + qsum (map (rd3 data) (open_voxels nx ny nz labels vacuum)))%Q.
Proof.
  exists 1, 1, 5, 1%nat, (fun _ _ _ => 1%Q), (on_line (-1) [-1; -1; 0; 0; -1]), (on_line false [false; true; false; false; true]), line_trans, [1%nat], [2]%Q, [2]%Q.
  split; [apply shells_line; [repeat constructor|discriminate|intros b [<-|[]]; lia]|]. split.
  { intros [[i j] k]. cbn [rd3]. unfold on_line. destruct (Z.to_nat k) as [|[|[|[|[|n]]]]]; cbn; try lia. destruct n; cbn; lia. }
  assert (E : open_voxels 1 1 5 (on_line (-1) [-1; -1; 0; 0; -1]) (on_line false [false; true; false; false; true]) = [(0, 0, 0)]) by (vm_compute; reflexivity).
  rewrite E. split.
  { intros v [<-|[]]. exists ((0, 0, 2), 2%Q). split; [right; right; right; now left|]. split; vm_compute; congruence. }
  intros argsort SO. assert (EA : argsort [] = []) by (apply Permutation_nil, Permutation_sym; exact (SO [])).
  eexists _, _, _. split; [run_outside; rewrite EA; vm_compute; reflexivity|]. split; [exists (0, 0, 0); split; [now left|vm_compute; reflexivity]|].
  vm_compute. discriminate.
Qed.
Print Assumptions C76_lost_refuted.

(** ** C77: with the "voronelf" method the voxels keep their zero-flux labels, whatever the planes. *)
Theorem C77_voronelf_refuted : exists (nx ny nz : Z) m planes mind natoms num labels v x, 0 < nx /\ 0 < ny /\ 0 < nz /\
  grouped planes /\ (forall y, In y planes -> 0 <= pt_site y < Z.of_nat num) /\ (forall w, 0 <= rd3 labels w < Z.of_nat num) /\
  In v (voxels nx ny nz) /\ In x planes /\ encloses mind (grid_cart nx ny nz m v) planes x /\
  (forall y, In y planes -> encloses mind (grid_cart nx ny nz m v) planes y -> pt_site y = pt_site x) /\
  forall data argsort trans breaks, (forall w, In w (voxels nx ny nz) -> (0 < rd3 data w)%Q) -> (forall l, Permutation (argsort l) (seq 0 (length l))) -> shells trans breaks ->
    let '(start, max_label) := prepare MVoronelf natoms num labels in
    exists lab ch vo, get_badelf_assignments nx ny nz argsort data start planes (fun _ _ _ => false) mind num m trans breaks max_label = Done (lab, ch, vo) /\
      rd3 lab v <> pt_site x.
Proof.
  exists 4, 1, 1, cube4, slabs, (1 # 2)%Q, 1%nat, 2%nat, (fun _ _ _ => 0), (3, 0, 0), (Part 1 0 (-1, 0, 0, 2 # 1)%Q).
  assert (G : grouped slabs) by apply C43_ex_grouped.
  assert (RP : forall y, In y slabs -> 0 <= pt_site y < Z.of_nat 2) by (intros y [<-|[<-|[<-|[<-|[]]]]]; cbn; lia).
  split; [lia|]. split; [lia|]. split; [lia|]. split; [exact G|]. split; [exact RP|]. split; [intros [[i j] k]; cbn; lia|].
  split; [vm_compute; auto|]. split; [right; right; now left|]. split.
  { intros y [<-|[<-|[<-|[<-|[]]]]] [S _]; cbn [pt_site] in S; try discriminate S; apply test_spec; vm_compute; reflexivity. }
  split.
  { intros y I E. destruct (Z.eq_dec (pt_site y) 0) as [Y|Y]; [|specialize (RP y I); cbn in RP |- *; lia]. exfalso.
    assert (Y2 : pt_trans y = 0) by (destruct I as [<-|[<-|[<-|[<-|[]]]]]; reflexivity).
    specialize (E (Part 0 0 (1, 0, 0, - (2 # 1))%Q) (or_introl eq_refl) (conj Y Y2)). revert E. vm_compute. congruence. }
  intros data argsort trans breaks DP SO SH. cbn [prepare].
  destruct (C44_whole 4 1 1 argsort data (fun _ _ _ => 0) slabs (fun _ _ _ => false) (1 # 2) 2 cube4 trans breaks 2) as (lab & ch & vo & D & KEEP & _); auto; try lia.
  - intros [[i j] k]. cbn. lia.
  - exists lab, ch, vo. split; [exact D|]. rewrite KEEP; [cbn; discriminate|vm_compute; auto|]. left. cbn. discriminate.
Qed.
Print Assumptions C77_voronelf_refuted.

(** ** C78, C79: planes are dropped by looking at fractional coordinates *)
Definition signed (eqn : Q * Q * Q * Q) (p : vec) : Q := let '(a, b, c, d) := eqn in let '(x, y, z) := p in (a * x + b * y + c * z + d)%Q.

(** In a cubic lattice (rows orthogonal and of equal length) a point lies under the plane in real
    space exactly when it does in fractional coordinates. *)
Theorem C78_cubic root (m : mat) (k : Q) (w : wrapped) (x : vec) :
  let '(r1, r2, r3) := m in
  (vdot r1 r1 == k -> vdot r2 r2 == k -> vdot r3 r3 == k -> vdot r1 r2 == 0 -> vdot r1 r3 == 0 -> vdot r2 r3 == 0 -> 0 < k ->
   0 < root (norm2 (vmat (w_vector w) m)) ->
   (signed (plane_eqn root m w) (vmat x m) <= 0 <-> vdot (w_vector w) x <= vdot (w_vector w) (w_point w)))%Q.
Proof.
  destruct m as [[[[a1 a2] a3] [[b1 b2] b3]] [[c1 c2] c3]]. intros K1 K2 K3 O12 O13 O23 KP RP.
  unfold plane_eqn. destruct (w_vector w) as [[p q] r], (w_point w) as [[u v] t], x as [[x y] z]. cbn [vmat] in RP |- *.
  set (n := root _) in *. cbn [signed vdot vmat] in *.
  set (A := (p * a1 + q * b1 + r * c1)%Q). set (B := (p * a2 + q * b2 + r * c2)%Q). set (C := (p * a3 + q * b3 + r * c3)%Q).
  assert (E : (A / n * (x * a1 + y * b1 + z * c1) + B / n * (x * a2 + y * b2 + z * c2) + C / n * (x * a3 + y * b3 + z * c3) +
    - (A / n * (u * a1 + v * b1 + t * c1) + B / n * (u * a2 + v * b2 + t * c2) + C / n * (u * a3 + v * b3 + t * c3)) ==
    k / n * ((p * x + q * y + r * z) - (p * u + q * v + r * t)))%Q).
  { transitivity ((p * (x - u) * (a1 * a1 + a2 * a2 + a3 * a3) + q * (y - v) * (b1 * b1 + b2 * b2 + b3 * b3) + r * (z - t) * (c1 * c1 + c2 * c2 + c3 * c3)
       + (p * (y - v) + q * (x - u)) * (a1 * b1 + a2 * b2 + a3 * b3) + (p * (z - t) + r * (x - u)) * (a1 * c1 + a2 * c2 + a3 * c3)
       + (q * (z - t) + r * (y - v)) * (b1 * c1 + b2 * c2 + b3 * c3)) / n)%Q.
    - unfold A, B, C. field. lra.
    - rewrite K1, K2, K3, O12, O13, O23. field. lra. }
  rewrite E. assert (KN : (0 < k / n)%Q) by (apply div_pos; assumption).
  set (D := (p * x + q * y + r * z - (p * u + q * v + r * t))%Q). split; intros H.
  - assert (D <= 0)%Q; [|unfold D in *; lra]. destruct (Qlt_le_dec 0 D) as [P|P]; [|exact P]. exfalso.
    assert (0 * 0 < k / n * D)%Q; [|lra]. setoid_replace (0 * 0)%Q with (k / n * 0)%Q by ring. now apply Qmult_lt_l.
  - assert (D <= 0)%Q by (unfold D; lra). setoid_replace 0%Q with (k / n * 0)%Q by ring. apply Qmult_le_l; [exact KN|assumption].
Qed.
Print Assumptions C78_cubic.

(** In a cell with unequal edges this fails: a group of planes is dropped as lying outside the cell although
    a corner of the cell is inside the partition. *)
Theorem C79_edges_refuted : exists (m : mat) (p : plane) (t : Z * Z * Z) (x : vec), m = ((1, 0, 0), (0, 1, 0), (0, 0, 4))%Q /\ In t transformations /\
  (moved_volume p t == 0)%Q /\ (forall order ws, Permutation order (all_pairs [p]) -> cell_wrapped order [p] = Done ws -> forall w n, In w ws -> nth_error transformations n = Some t -> w_trans w <> n) /\
  x = (0, 0, 1)%Q /\ forall root, (forall q, 0 < q -> 0 < root q)%Q ->
    (signed (plane_eqn root m (Wrapped (pl_site p) 0 (vshift (pl_point p) t) (vround12 (pl_vector p)) 0)) (vmat x m) < 0)%Q.
Proof.
  set (p := Plane 0 ((-2, 0, 1 # 2)%Q) ((3 # 5, 0, -4 # 5)%Q)).
  exists ((1, 0, 0), (0, 1, 0), (0, 0, 4))%Q, p, (0, 0, 0), (0, 0, 1)%Q. split; [reflexivity|]. split; [now left|].
  assert (V0 : (moved_volume p (0, 0, 0)%Z == 0)%Q) by (vm_compute; reflexivity). split; [exact V0|]. split.
  { intros order ws PO C w n W Tn. destruct (C70_kept order [p] PO) as (out & D & S); [intros q [<-|[]]; cbn; lia|].
    rewrite C in D. injection D as <-. apply S in W. destruct W as (q & i & t & [<-|[]] & Ti & -> & _ & NZ). cbn [w_trans]. intros <-.
    rewrite Ti in Tn. injection Tn as ->. apply (NZ p); [now left|reflexivity|exact V0]. }
  split; [reflexivity|]. intros root RP. unfold plane_eqn.
  assert (E : w_vector (Wrapped (pl_site p) 0 (vshift (pl_point p) (0, 0, 0)) (vround12 (pl_vector p)) 0) = vround12 (pl_vector p)) by reflexivity.
  cbn [w_vector w_point]. set (v := vround12 (pl_vector p)).
  assert (EV : let '(a, b, c) := v in (a == 3 # 5 /\ b == 0 /\ c == - 4 # 5)%Q) by (vm_compute; auto).
  destruct v as [[a b] c]. destruct EV as (Ea & Eb & Ec). cbn [vmat vshift pl_point p].
  set (A := (a * 1 + b * 0 + c * 0)%Q). set (B := (a * 0 + b * 1 + c * 0)%Q). set (Cc := (a * 0 + b * 0 + c * 4)%Q).
  assert (N2 : (0 < norm2 (A, B, Cc))%Q). { unfold norm2, A, B, Cc. rewrite Ea, Eb, Ec. vm_compute. reflexivity. }
  pose proof (RP _ N2) as RN. set (n := root (norm2 (A, B, Cc))) in *. cbn [signed vdot].
  assert (X : (A * (0 * 1 + 0 * 0 + 1 * 0) + B * (0 * 0 + 0 * 1 + 1 * 0) + Cc * (0 * 0 + 0 * 0 + 1 * 4)
     - (A * ((-2 + inject_Z 0) * 1 + (0 + inject_Z 0) * 0 + ((1 # 2) + inject_Z 0) * 0) + B * ((-2 + inject_Z 0) * 0 + (0 + inject_Z 0) * 1 + ((1 # 2) + inject_Z 0) * 0)
        + Cc * ((-2 + inject_Z 0) * 0 + (0 + inject_Z 0) * 0 + ((1 # 2) + inject_Z 0) * 4)) < 0)%Q).
  { unfold A, B, Cc. rewrite Ea, Eb, Ec. vm_compute. reflexivity. }
  match type of X with (?l < 0)%Q => assert (G : (l / n < 0)%Q) end.
  { apply Qlt_shift_div_r; [exact RN|]. setoid_replace (0 * n)%Q with 0%Q by ring. exact X. }
  eapply Qle_lt_trans; [|exact G]. apply Qle_lteq. right. field. lra.
Qed.
Print Assumptions C79_edges_refuted.
