(** C187-C190: the driver of the BadELF assignment. *)
From Coq Require Import QArith Qround Qabs Lqa Lia ZifyBool ZifyNat.
From Verif Require Import Base GridModel GridProofs NeighModel RootsModel UnionModel ChargeModel ChargeProofs CoordModel CoordMerge CoordProps BifProofs NearModel WeightModel RefineModel PlaneModel PlaneSpec PlaneInt PlaneVol PlaneProofs PlaneWrap GobjModel BadelfModel BadelfSpec BadelfProofs BadelfOut BadelfPass BadelfTop BadelfProps AssignModel AssignProofs.
From Verif Require Import RefineProps.
From Verif Require GobjProps ShareModel FeatLabModel FeatLabSpec FeatLabProps.
Local Open Scope Z_scope.

(** An offset that is searched: in range and neither too near nor too far. *)
Definition within nx ny nz m lattice root (o : voxel) : Prop :=
  In o (candidates nx ny nz m root (max_radius lattice root)) /\
  (min_radius nx ny nz m root <= offset_dist nx ny nz m root o <= max_radius lattice root)%Q.

(** ** C187: the shells *)
Section C187.
Variables nx ny nz : Z.
Variables m lattice : mat.
Variable root : Q -> Q.
Variable argsort : list Q -> list nat.
Let sph := sphere nx ny nz m lattice root argsort.
Let brk := transform_breaks nx ny nz m lattice root argsort.
Let dist := offset_dist nx ny nz m root.

Theorem C187_sphere : sorts argsort -> NoDup sph /\ StronglySorted (fun a b => (snd a <= snd b)%Q) sph /\
  forall o d, In (o, d) sph <-> within nx ny nz m lattice root o /\ d = dist o.
Proof.
  intros S. split; [now apply sphere_nodup|]. split; [now apply sphere_sorted|]. intros o d. unfold sph. rewrite sphere_in by exact S. unfold within, dist.
  split; [intros (C & -> & L); tauto|intros ((C & L) & ->); tauto].
Qed.

(** A break is the last position of a distance that is not the largest; the transforms up to there are
    exactly those at most as far. *)
Theorem C187_breaks : sorts argsort -> StronglySorted lt brk /\
  (forall b, In b brk <-> exists e e', nth_error sph b = Some e /\ nth_error sph (S b) = Some e' /\ (snd e < snd e')%Q) /\
  (forall b e x, In b brk -> nth_error sph b = Some e -> In x (firstn (S b) sph) <-> In x sph /\ (snd x <= snd e)%Q).
Proof.
  intros S. split; [apply breaks_sorted|]. split; [intros b; now apply breaks_spec|]. intros b e x. now apply breaks_prefix.
Qed.

(** A labelled neighbour is found exactly when one lies strictly nearer than the farthest transform. *)
Theorem C187_examined : sorts argsort -> forall max_label labels v,
  (exists b, In b brk /\ hit nx ny nz max_label labels v (firstn (S b) sph)) <->
  exists o o', within nx ny nz m lattice root o /\ within nx ny nz m lattice root o' /\ (dist o < dist o')%Q /\ usable nx ny nz max_label labels v (o, dist o).
Proof.
  intros S max_label labels v. unfold brk, sph. rewrite examined by exact S.
  split; intros (o & o' & A & B & L & U); exists o, o'; rewrite !sphere_in in * by exact S; unfold within in *; unfold dist in *; tauto.
Qed.
End C187.
Print Assumptions C187_sphere.
Print Assumptions C187_breaks.
Print Assumptions C187_examined.

(** Nearest and farthest distances searched. *)
Theorem C187_radii : forall nx ny nz m lattice root,
  (min_radius nx ny nz m root == 2 * (max_point_dist nx ny nz m root + 1 / 1000000000000))%Q /\
  (max_radius lattice root <= 3)%Q /\
  let '(a, b, c) := lattice in
  (forall v, In v [a; b; c] -> (2 * max_radius lattice root <= root (norm2 v))%Q) /\
  ((max_radius lattice root == 3)%Q \/ exists v, In v [a; b; c] /\ (2 * max_radius lattice root == root (norm2 v))%Q).
Proof.
  intros nx ny nz m [[a b] c] root. split.
  { unfold min_radius, voxel_dist. change (inject_Z tera) with (1000000000000 # 1)%Q. ring. }
  unfold max_radius.
  destruct (GobjProps.qmin_list_spec (map (fun v => root (norm2 v) / 2)%Q [a; b; c]) ltac:(discriminate)) as [(e & I & E) L].
  set (r := qmin_list (map (fun v => (root (norm2 v) / 2)%Q) [a; b; c])) in *.
  assert (M : (qmin r 3 <= r)%Q /\ (qmin r 3 <= 3)%Q /\ ((qmin r 3 == 3)%Q \/ (qmin r 3 == r)%Q)).
  { unfold qmin. destruct (Qltb r 3) eqn:L3.
    - apply Qltb_lt in L3. repeat split; [lra|lra|right; reflexivity].
    - apply Qltb_ge in L3. repeat split; [exact L3|lra|left; reflexivity]. }
  destruct M as (M1 & M2 & M3). split; [exact M2|]. split.
  - intros v Hv. assert (B : (r <= root (norm2 v) / 2)%Q) by (apply L; apply in_map_iff; exists v; auto).
    assert (H2 : (root (norm2 v) / 2 == root (norm2 v) * (1 # 2))%Q) by reflexivity. rewrite H2 in B. lra.
  - destruct M3 as [M3|M3]; [now left|right]. apply in_map_iff in I as (v & I & Hv). exists v. split; [exact Hv|]. rewrite M3, E, <- I. field.
Qed.
Print Assumptions C187_radii.

(** ** C188: totals *)
Lemma prepare_range me natoms nsites zf v : -1 <= rd3 zf v -> (me = MVoronelf -> rd3 zf v < Z.of_nat nsites) ->
  -1 <= rd3 (fst (prepare me natoms nsites zf)) v < Z.of_nat nsites.
Proof.
  destruct v as [[i j] k]. cbn [rd3]. intros A B. destruct me; cbn [prepare fst].
  - destruct ((Z.of_nat natoms <=? zf i j k) && (zf i j k <? Z.of_nat nsites)) eqn:E; lia.
  - specialize (B eq_refl). lia.
Qed.
Lemma prepare_open me natoms nsites zf v : rd3 zf v = -1 -> rd3 (fst (prepare me natoms nsites zf)) v = -1.
Proof.
  destruct v as [[i j] k]. cbn [rd3]. intros E. destruct me; cbn [prepare fst]; [|exact E]. rewrite E.
  destruct ((Z.of_nat natoms <=? -1) && (-1 <? Z.of_nat nsites)); reflexivity.
Qed.
Definition own_sites (me : method) (natoms nsites : nat) : nat := match me with MBadelf => natoms | MVoronelf => nsites end.
Lemma prepare_snd me natoms nsites zf : snd (prepare me natoms nsites zf) = own_sites me natoms nsites.
Proof. now destruct me. Qed.

Lemma wrapped_sites order planes ws n : cell_wrapped order planes = Done ws -> (forall p, In p planes -> (pl_site p < n)%nat) ->
  forall w, In w ws -> (w_site w < n)%nat.
Proof.
  unfold cell_wrapped. destruct (mark_trans order _) as [flags| |]; cbn [obind]; try discriminate. intros E H w W.
  assert (E' : ws = map (fun '(p, (i, t)) => Wrapped (pl_site p) i (vshift (pl_point p) t) (vround12 (pl_vector p)) (moved_volume p t))
    (filter (fun '(p, (i, t)) => negb (Qeq_bool (moved_volume p t) 1 || nth (pl_site p * 27 + i) flags false)) (all_pairs planes))) by congruence.
  rewrite E' in W. apply in_map_iff in W. destruct W as ([p [i t]] & <- & W). cbn [w_site]. apply filter_In in W. destruct W as [W _].
  unfold all_pairs in W. apply in_prod_iff in W. now apply H.
Qed.

Lemma no_open nx ny nz argsort data labels planes vacuum mind num m max_label t1 b1 t2 b2 :
  open_voxels nx ny nz (in_labels nx ny nz m planes mind vacuum labels) vacuum = [] ->
  get_badelf_assignments nx ny nz argsort data labels planes vacuum mind num m t1 b1 max_label =
  get_badelf_assignments nx ny nz argsort data labels planes vacuum mind num m t2 b2 max_label.
Proof.
  intros E. unfold get_badelf_assignments, in_partition. set (out := in_labels _ _ _ _ _ _ _ _) in *.
  destruct (in_totals data out _ _ _) as [[ch vo]| |]; cbn [obind]; try reflexivity.
  unfold outside, gather_all. unfold open_voxels in E. rewrite E. reflexivity.
Qed.
Definition plain_trans : list (voxel * Q) := [((0, 0, 0), 1%Q)].
Lemma plain_shells : shells plain_trans [0%nat].
Proof. split; [intros e [<-|[]]; reflexivity|]. split; [repeat constructor|]. split; [discriminate|]. intros b [<-|[]]. cbn. lia. Qed.

Section C188.
Variables nx ny nz : Z.
Variables m lattice : mat.
Variable root : Q -> Q.
Variable argsort : list Q -> list nat.
Variable me : method.
Variable order : list (plane * (nat * (Z * Z * Z))).
Variable perm : list nat.
Variable planes : list plane.
Variable ws : list wrapped.
Variable data : arr3 Q.
Variable zf : arr3 Z.
Variable vacuum : arr3 bool.
Variables natoms nsites : nat.
Variable volume : Q.
Hypothesis NX : 0 < nx. Hypothesis NY : 0 < ny. Hypothesis NZ : 0 < nz.
Hypothesis NA : (0 < natoms <= nsites)%nat.
Hypothesis SORT : sorts argsort.
Hypothesis ROOT : forall q, (0 <= q -> 0 <= root q)%Q.
Hypothesis SP : StronglySorted le (map pl_site planes).
Hypothesis WRAP : cell_wrapped order planes = Done ws.
Hypothesis LEX : lexsorts perm ws.
Hypothesis RP : forall p, In p planes -> (pl_site p < own_sites me natoms nsites)%nat.
Hypothesis LOW : forall v, -1 <= rd3 zf v.
Hypothesis HIGH : me = MVoronelf -> forall v, rd3 zf v < Z.of_nat nsites.
Hypothesis DATA : forall v, In v (voxels nx ny nz) -> (0 < rd3 data v)%Q.

Let parts := order_planes root m perm ws.
Let mind := voxel_dist nx ny nz m root.
Let start := fst (prepare me natoms nsites zf).
(** The labels after the partitions have been filled. *)
Let inl := in_labels nx ny nz m parts mind vacuum start.
Let opens := open_voxels nx ny nz inl vacuum.
Let sph := sphere nx ny nz m lattice root argsort.
Let brk := transform_breaks nx ny nz m lattice root argsort.
Let dist := offset_dist nx ny nz m root.
Let n := inject_Z (nx * ny * nz).
Let ml := own_sites me natoms nsites.
Let run labeler := voxel_assignments nx ny nz m lattice root argsort (Planes me) order perm planes data zf vacuum labeler natoms nsites volume.

Local Definition whole := get_badelf_assignments nx ny nz argsort data start parts vacuum mind nsites m sph brk ml.

Lemma run_eq labeler : run labeler = obind whole (fun '(lab, ch, vo) => Done (lab, map (fun x => x / n)%Q ch, map (fun x => x * volume / n)%Q vo)).
Proof.
  unfold run, voxel_assignments, partitioning_planes. rewrite WRAP. cbn [obind]. unfold whole, start, ml. rewrite <- (prepare_snd me natoms nsites zf).
  destruct (prepare me natoms nsites zf) as [a b]. reflexivity.
Qed.

Lemma parts_ok : grouped parts /\ forall x, In x parts -> 0 <= pt_site x < Z.of_nat ml.
Proof.
  destruct (C43_grouped root m order planes ws perm SP WRAP LEX) as (G & P & PM). split; [exact G|]. intros x X. split; [now apply P|].
  apply (Permutation_in _ PM), in_map_iff in X. destruct X as (w & <- & W). cbn [pt_site]. pose proof (wrapped_sites order planes ws _ WRAP RP w W) as L. unfold ml. lia.
Qed.
Lemma ml_le : (ml <= nsites)%nat.
Proof. unfold ml, own_sites. destruct me; lia. Qed.
Lemma perm_sorts : forall l, Permutation (argsort l) (seq 0 (length l)).
Proof. intros l. apply (SORT l). Qed.

(** The transforms may be replaced by any when nothing is left to search for. *)
Lemma whole_shells : (opens <> [] -> brk <> []) -> exists t b, shells t b /\
  whole = get_badelf_assignments nx ny nz argsort data start parts vacuum mind nsites m t b ml /\ (opens <> [] -> t = sph /\ b = brk).
Proof.
  intros H. destruct opens as [|o os] eqn:EO.
  - exists plain_trans, [0%nat]. split; [exact plain_shells|]. split; [|congruence]. now apply no_open.
  - exists sph, brk. split; [|split; [reflexivity|auto]]. apply shells_ok; [exact SORT|exact ROOT|]. apply H. discriminate.
Qed.

Lemma start_range v : -1 <= rd3 start v < Z.of_nat nsites.
Proof. apply prepare_range; [apply LOW|]. intros E. now apply HIGH. Qed.

Theorem C188_total labeler : 
  (forall v, In v (voxels nx ny nz) -> rd3 vacuum v = true -> rd3 zf v = -1) ->
  (forall v, In v opens -> exists o o', within nx ny nz m lattice root o /\ within nx ny nz m lattice root o' /\ (dist o < dist o')%Q /\
     usable nx ny nz ml inl v (o, dist o)) ->
  exists lab ch vo, run labeler = Done (lab, ch, vo) /\ length ch = nsites /\ length vo = nsites /\
    (qsum ch == qsum (map (fun v => if rd3 vacuum v then 0 else rd3 data v) (voxels nx ny nz)) / n)%Q /\
    (qsum vo == qsum (map (fun v => if rd3 vacuum v then 0 else 1) (voxels nx ny nz)) / n * volume)%Q.
Proof.
  intros VAC FOUND. destruct parts_ok as [G PR].
  assert (AF : forall v, In v opens -> exists b, In b brk /\ hit nx ny nz ml inl v (firstn (S b) sph)).
  { intros v V. apply (C187_examined nx ny nz m lattice root argsort SORT). now apply FOUND. }
  destruct whole_shells as (t & b & SH & E & TB).
  { intros NE. destruct opens as [|o os]; [congruence|]. destruct (AF o (or_introl eq_refl)) as (b & B & _). intros EB. rewrite EB in B. destruct B. }
  assert (AF' : forall v, In v opens -> exists x, In x b /\ hit nx ny nz ml inl v (firstn (S x) t)).
  { intros v V. destruct TB as [-> ->]; [intros EO; rewrite EO in V; destruct V|]. now apply AF. }
  assert (PR' : forall x, In x parts -> 0 <= pt_site x < Z.of_nat nsites) by (intros x X; pose proof ml_le; specialize (PR x X); lia).
  destruct (C44_whole nx ny nz argsort data start parts vacuum mind nsites m t b ml NX NY NZ ltac:(lia) ml_le perm_sorts SH G PR' start_range DATA)
    as (lab & ch & vo & D & _ & _ & T).
  destruct T as [T1 T2]; [exact AF'| |].
  { intros v V VC. apply prepare_open. now apply VAC. }
  rewrite run_eq, E, D. cbn [obind]. eexists. eexists. eexists. split; [reflexivity|]. rewrite !map_length.
  assert (LN : length ch = nsites /\ length vo = nsites).
  { destruct (C43_totals nx ny nz data start parts vacuum mind nsites m PR' G (fun v _ => start_range v)) as (ch0 & vo0 & D0 & L1 & L2 & _).
    unfold get_badelf_assignments in D. rewrite D0 in D. cbn [obind] in D. fold inl in D.
    assert (LI : forall v, -1 <= rd3 inl v).
    { intros [[i j] k]. cbn [rd3]. destruct (C43_assigned nx ny nz m parts mind vacuum start i j k G (fun x X => proj1 (PR x X))) as [A B]. fold inl in A, B.
      pose proof (start_range (i, j, k)) as SR. cbn [rd3] in SR. destruct (Z.eq_dec (start i j k) (-1)) as [L|L]; [|rewrite A by auto; lia].
      destruct (vacuum i j k) eqn:VC; [rewrite A by auto; lia|]. destruct (B L eq_refl) as [[-> _]|(q & x & X & -> & _)]; [lia|].
      apply nth_error_In in X. specialize (PR x X). lia. }
    destruct (conserved nx ny nz ml argsort perm_sorts inl LI vacuum t b SH data ch0 vo0 lab ch vo D AF') as (A & B & _). split; congruence. }
  split; [apply LN|]. split; [apply LN|]. split.
  - rewrite qsum_map_div. now rewrite T1.
  - assert (SC : forall l, (qsum (map (fun x => x * volume / n) l) == qsum l / n * volume)%Q).
    { induction l as [|x l IH]; [cbn; unfold Qdiv; ring|]. cbn [map]. rewrite !qsum_cons, IH. unfold Qdiv. ring. }
    now rewrite SC, T2.
Qed.
End C188.

(** ** C189: electrides keep their voxels *)
Section C189.
Variables nx ny nz : Z.
Variables m lattice : mat.
Variable root : Q -> Q.
Variable argsort : list Q -> list nat.
Variable order : list (plane * (nat * (Z * Z * Z))).
Variable perm : list nat.
Variable planes : list plane.
Variable ws : list wrapped.
Variable data : arr3 Q.
Variable zf : arr3 Z.
Variable vacuum : arr3 bool.
Variables natoms nsites : nat.
Variable volume : Q.
Hypothesis NX : 0 < nx. Hypothesis NY : 0 < ny. Hypothesis NZ : 0 < nz.
Hypothesis NA : (0 < natoms <= nsites)%nat.
Hypothesis SORT : sorts argsort.
Hypothesis ROOT : forall q, (0 <= q -> 0 <= root q)%Q.
Hypothesis SP : StronglySorted le (map pl_site planes).
Hypothesis WRAP : cell_wrapped order planes = Done ws.
Hypothesis LEX : lexsorts perm ws.
Hypothesis RP : forall p, In p planes -> (pl_site p < natoms)%nat.
Hypothesis LOW : forall v, -1 <= rd3 zf v.
Hypothesis DATA : forall v, In v (voxels nx ny nz) -> (0 < rd3 data v)%Q.
Let n := inject_Z (nx * ny * nz).
Let run labeler := voxel_assignments nx ny nz m lattice root argsort (Planes MBadelf) order perm planes data zf vacuum labeler natoms nsites volume.

(** In the method "badelf" an electride has exactly the voxels, charge and volume of its basins. *)
Theorem C189_electrides labeler lab ch vo : run labeler = Done (lab, ch, vo) -> forall s, (natoms <= s < nsites)%nat ->
  (forall v, In v (voxels nx ny nz) -> rd3 lab v = Z.of_nat s <-> rd3 zf v = Z.of_nat s) /\
  (nth s ch 0 == site_sum (rd3 data) (rd3 zf) (Z.of_nat s) (voxels nx ny nz) / n)%Q /\
  (nth s vo 0 == site_sum (fun _ => 1) (rd3 zf) (Z.of_nat s) (voxels nx ny nz) / n * volume)%Q.
Proof.
  intros R s Hs.
  pose proof (parts_ok nx ny nz m root MBadelf order perm planes ws natoms nsites NA ROOT SP WRAP LEX RP) as [G PR]. cbn [own_sites] in PR.
  unfold run in R. rewrite (run_eq nx ny nz m lattice root argsort MBadelf order perm planes ws data zf vacuum natoms nsites volume WRAP labeler) in R.
  set (parts := order_planes root m perm ws) in *. set (start := fst (prepare MBadelf natoms nsites zf)) in *. set (mind := voxel_dist nx ny nz m root) in *.
  set (inl := in_labels nx ny nz m parts mind vacuum start) in *.
  assert (SR : forall v, -1 <= rd3 start v < Z.of_nat nsites) by (intros v; apply prepare_range; [apply LOW|discriminate]).
  assert (PR' : forall x, In x parts -> 0 <= pt_site x < Z.of_nat nsites) by (intros x X; specialize (PR x X); lia).
  assert (START : forall v, rd3 start v = Z.of_nat s <-> rd3 zf v = Z.of_nat s).
  { intros [[i j] k]. unfold start. cbn [prepare fst rd3]. destruct ((Z.of_nat natoms <=? zf i j k) && (zf i j k <? Z.of_nat nsites)) eqn:K; [reflexivity|]. lia. }
  assert (INL : forall v, -1 <= rd3 inl v /\ (rd3 inl v = Z.of_nat s <-> rd3 zf v = Z.of_nat s)).
  { intros [[i j] k]. rewrite <- START. cbn [rd3]. pose proof (SR (i, j, k)) as S1. cbn [rd3] in S1.
    destruct (C43_assigned nx ny nz m parts mind vacuum start i j k G (fun x X => proj1 (PR x X))) as [A B]. fold inl in A, B.
    destruct (Z.eq_dec (start i j k) (-1)) as [L|L]; [|rewrite A by auto; split; [lia|reflexivity]].
    destruct (vacuum i j k) eqn:VC; [rewrite A by auto; split; [lia|reflexivity]|]. destruct (B L eq_refl) as [[-> _]|(q & x & X & -> & _)]; rewrite L; [lia|].
    apply nth_error_In in X. specialize (PR x X). lia. }
  destruct (whole nx ny nz m lattice root argsort MBadelf perm ws data zf vacuum natoms nsites) as [[[lab0 ch0] vo0]| |] eqn:W; cbn [obind] in R; try discriminate.
  assert (BR : open_voxels nx ny nz inl vacuum <> [] -> transform_breaks nx ny nz m lattice root argsort <> []).
  { intros NE EB. unfold whole in W. fold parts start mind in W. rewrite EB in W. unfold get_badelf_assignments, in_partition in W. fold inl in W.
    destruct (in_totals data inl _ _ _) as [[c v]| |]; cbn [obind] in W; try discriminate. unfold outside, gather_all in W. fold (open_voxels nx ny nz inl vacuum) in W.
    destruct (open_voxels nx ny nz inl vacuum); [congruence|discriminate]. }
  destruct (whole_shells nx ny nz m lattice root argsort MBadelf perm ws data zf vacuum natoms nsites SORT ROOT BR) as (t & b & SH & E & _).
  rewrite W in E. fold parts start mind in E. cbn [own_sites] in E. symmetry in E.
  destruct (C44_whole nx ny nz argsort data start parts vacuum mind nsites m t b natoms NX NY NZ ltac:(lia) ltac:(lia) (fun l => proj1 (SORT l)) SH G PR' SR DATA)
    as (lab1 & ch1 & vo1 & D & K1 & K2 & _). rewrite E in D. injection D as <- <- <-. fold inl in K1, K2.
  injection R as <- <- <-. split.
  - intros v V. rewrite <- (proj2 (INL v)). destruct (in_dec (fun a b : voxel => ltac:(decide equality; [apply Z.eq_dec|decide equality; apply Z.eq_dec])) v (open_voxels nx ny nz inl vacuum)) as [O|O].
    + assert (IV : rd3 inl v = -1) by (apply filter_In in O; destruct O as [_ O]; lia). rewrite IV.
      destruct (K2 v O) as [->|(d & _ & U & ->)]; [reflexivity|]. unfold usable in U. lia.
    + rewrite K1; [reflexivity|exact V|]. destruct (rd3 vacuum v) eqn:VC; [now right|]. left. intros IV. apply O. apply filter_In. split; [exact V|]. rewrite IV, VC. reflexivity.
  - destruct (C43_totals nx ny nz data start parts vacuum mind nsites m PR' G (fun v _ => SR v)) as (c & v & D0 & L1 & L2 & S). fold inl in D0, S.
    unfold get_badelf_assignments in E. rewrite D0 in E. cbn [obind] in E.
    destruct (outside_above nx ny nz natoms argsort data inl vacuum t b c v lab0 ch0 vo0 s (fun l => proj1 (SORT l)) (fun v => proj1 (INL v)) SH ltac:(lia) E) as [A B].
    assert (SS : forall f : voxel -> Q, (site_sum f (rd3 inl) (Z.of_nat s) (voxels nx ny nz) == site_sum f (rd3 zf) (Z.of_nat s) (voxels nx ny nz))%Q).
    { intros f. unfold site_sum. apply qsum_map_ext. intros w _. destruct (INL w) as [_ I]. destruct (rd3 inl w =? Z.of_nat s) eqn:P, (rd3 zf w =? Z.of_nat s) eqn:P'; try reflexivity; lia. }
    assert (LE : (nth s (map (fun x => x / n) ch0) 0 == nth s ch0 0 / n)%Q /\ (nth s (map (fun x => x * volume / n) vo0) 0 == nth s vo0 0 / n * volume)%Q).
    { assert (NM : forall (f : Q -> Q) l, (f 0 == 0)%Q -> (nth s (map f l) 0 == f (nth s l 0))%Q).
      { intros f l F0. destruct (Nat.lt_ge_cases s (length l)) as [LT|GE]; [rewrite (nth_indep _ 0%Q (f 0%Q)) by (rewrite map_length; lia); rewrite map_nth; reflexivity|].
        rewrite !nth_overflow by (rewrite ?map_length; lia). now rewrite F0. }
      split; rewrite NM by (unfold Qdiv; ring); [reflexivity|unfold Qdiv; ring]. }
    destruct (S s ltac:(lia)) as [S1 S2]. destruct LE as [LE1 LE2]. split; [etransitivity; [exact LE1|]|etransitivity; [exact LE2|]]; [rewrite A, S1, SS|rewrite B, S2, SS]; reflexivity.
Qed.
End C189.
Print Assumptions C188_total.
Print Assumptions C189_electrides.

(** ** C190: labels and charges *)
(** The voxels of a bond are labelled past the sites that have charges: the zero-flux labels then do not
    index the charges, and "voronelf" indexes outside its array. *)
Definition bond_labels : list Z := [0; 3; -1; 1; 3; 2; 2].
Definition bond_sys : ShareModel.system := ShareModel.System 2
  [ShareModel.Feature false 5 9 [0%nat] [0%nat] [1; 2]%Q [1; 2; 2]%Q; ShareModel.Feature false 3 5 [0; 1]%nat [0; 1]%nat [1; 1]%Q [1; 1; 2]%Q;
   ShareModel.Feature true 1 4 [0; 1]%nat [0; 1]%nat [2; 2]%Q [2; 2; 1]%Q] [1; 4]%Q [1; 1]%Q [1; 1; 1]%Q.
Definition bond_zf : arr3 Z := fun _ _ k => nth (Z.to_nat k) bond_labels (-1).
Theorem C190_labels_refuted : exists sys feats ba labels (zf : arr3 Z) out ch vo,
  FeatLabSpec.tables_ok feats (ShareModel.s_atoms sys) ba labels [5; 1; 6; 2; 1]%Q [9; 2; 8; 3; 4]%Q /\
  map ShareModel.ft_bare (ShareModel.s_features sys) = map (fun f => Nat.eqb 7 (FeatLabModel.lf_type f)) feats /\
  FeatLabModel.get_feature_labels (Nat.eqb 7) feats (ShareModel.s_atoms sys) ba labels [5; 1; 6; 2; 1]%Q [9; 2; 8; 3; 4]%Q [1; 7]%nat false false false true
    = Done (FeatLabModel.Single (FeatLabModel.ILabels out)) /\
  (forall v, In v (voxels 1 1 7) -> nth_error out (Z.to_nat (snd v)) = Some (Some (rd3 zf v))) /\
  ShareModel.get_charges_and_volumes sys true ShareModel.Equal = Done (ch, vo) /\
  forall m lattice root argsort order perm planes data vacuum volume,
    let run c := voxel_assignments 1 1 7 m lattice root argsort c order perm planes data zf vacuum
       (ShareModel.get_charges_and_volumes sys true ShareModel.Equal) (ShareModel.s_atoms sys) (length ch) volume in
    run ZeroFlux = Done (zf, ch, vo) /\ (exists v, In v (voxels 1 1 7) /\ Z.of_nat (length ch) <= rd3 zf v) /\
    forall x, run (Planes MVoronelf) <> Done x.
Proof.
  exists bond_sys, FeatLabProps.ex_feats, FeatLabProps.ex_atoms, FeatLabProps.ex_labels, bond_zf. do 3 eexists.
  split; [exact FeatLabProps.C47_ex_ok|]. split; [reflexivity|]. split; [reflexivity|]. split; [|split; [vm_compute; reflexivity|]].
  { intros v V. repeat (destruct V as [<-|V]; [reflexivity|]). destruct V. }
  intros m lattice root argsort order perm planes data vacuum volume run.
  assert (OUT : exists v, In v (voxels 1 1 7) /\ Z.of_nat 3 <= rd3 bond_zf v) by (exists (0, 0, 1); split; [right; now left|vm_compute; discriminate]).
  split; [reflexivity|]. split; [exact OUT|]. intros x X. unfold run, voxel_assignments in X.
  destruct (partitioning_planes m root order perm planes) as [parts| |]; discriminate.
Qed.
Print Assumptions C190_labels_refuted.

(** A cube of 6 Angstrom with 125 voxels. *)
Definition root8 (q : Q) : Q := Z.sqrt (Qfloor (q * 64)) # 8.
Definition cell6 : mat := ((6, 0, 0), (0, 6, 0), (0, 0, 6))%Q.
Example C187_ex : breaks_from 0 [1; 1; 2; 2; 2; 3]%Q = [1; 4]%nat /\ (voxel_dist 5 5 5 cell6 root8 == 1 + 1 / 1000000000000)%Q /\ (max_radius cell6 root8 == 3)%Q /\
  (offset_dist 5 5 5 cell6 root8 (-2, 0, 0)%Z == 19 # 8)%Q /\ (offset_dist 5 5 5 cell6 root8 (2, 1, 0)%Z == 21 # 8)%Q.
Proof. repeat split; reflexivity. Qed.
Lemma root8_pos : forall q, (0 <= q -> 0 <= root8 q)%Q.
Proof. intros q _. unfold root8, Qle. cbn [Qnum Qden]. pose proof (Z.sqrt_nonneg (Qfloor (q * 64))). lia. Qed.
Lemma within6 : within 5 5 5 cell6 cell6 root8 (-2, 0, 0) /\ within 5 5 5 cell6 cell6 root8 (2, 1, 0).
Proof. split; (split; [apply candidates_spec; vm_compute; intuition discriminate|split; vm_compute; discriminate]). Qed.
(** One voxel is left open, two are vacuum; the atoms have the voxels with small and large x. *)
Definition zf5 : arr3 Z := fun i j k => if (i =? 4) && (j =? 0) then -1 else if i <? 3 then 0 else 1.
Definition vac5 : arr3 bool := fun i j k => (i =? 4) && (j =? 0) && (0 <? k).
Example C188_ex labeler : exists lab ch vo,
  voxel_assignments 5 5 5 cell6 cell6 root8 sort_idx (Planes MVoronelf) [] [] [] (fun _ _ _ => 5%Q) zf5 vac5 labeler 2 2 216 = Done (lab, ch, vo) /\
  length ch = 2%nat /\ length vo = 2%nat /\ (qsum ch == 121 # 25)%Q /\ (qsum vo == (121 # 125) * 216)%Q.
Proof.
  assert (R : forall v, -1 <= rd3 zf5 v < 2).
  { intros [[i j] k]. cbn [rd3]. unfold zf5. destruct ((i =? 4) && (j =? 0)); [lia|]. destruct (i <? 3); lia. }
  destruct (C188_total 5 5 5 cell6 cell6 root8 sort_idx MVoronelf [] [] [] [] (fun _ _ _ => 5%Q) zf5 vac5 2 2 216) with (labeler := labeler) as (lab & ch & vo & E & L1 & L2 & S1 & S2);
    try reflexivity; try lia; try (intros; apply R).
  - exact sort_idx_sorts.
  - exact root8_pos.
  - constructor.
  - split; [constructor|constructor].
  - intros p [].
  - intros v _. destruct v as [[i j] k]. reflexivity.
  - intros [[i j] k] _ V. cbn [rd3] in *. unfold vac5 in V. unfold zf5. destruct ((i =? 4) && (j =? 0)); [reflexivity|discriminate].
  - intros [[i j] k] V. exists (-2, 0, 0), (2, 1, 0). destruct within6 as [W1 W2]. split; [exact W1|]. split; [exact W2|]. split; [reflexivity|].
    apply filter_In in V. destruct V as [V1 V2]. apply andb_true_iff in V2. destruct V2 as [V2 V3]. cbn [rd3] in V2. unfold in_labels in V2. cbn [prepare fst order_planes map combine in_site] in V2.
    assert (E : zf5 i j k = -1) by (destruct (negb (zf5 i j k =? -1) || vac5 i j k); lia). unfold zf5 in E. destruct ((i =? 4) && (j =? 0)) eqn:K; [|destruct (i <? 3); lia].
    assert (i = 4 /\ j = 0) as [-> ->] by lia. unfold usable. cbn [fst neigh rd3]. unfold in_labels. cbn [prepare fst order_planes map combine in_site]. vm_compute. split; [discriminate|reflexivity].
  - exists lab, ch, vo. split; [exact E|]. split; [exact L1|]. split; [exact L2|]. split; [rewrite S1|rewrite S2]; vm_compute; reflexivity.
Qed.
(** With one atom and one electride and nothing left open. *)
Example C189_ex labeler : exists lab ch vo,
  voxel_assignments 5 5 5 cell6 cell6 root8 sort_idx (Planes MBadelf) [] [] [] (fun _ _ _ => 5%Q) (fun _ _ _ => 1) vac5 labeler 1 2 216 = Done (lab, ch, vo) /\
  Forall2 Qeq ch [0; 5]%Q /\ Forall2 Qeq vo [0; 216]%Q.
Proof. do 3 eexists. split; [vm_compute; reflexivity|]. split; repeat constructor; vm_compute; reflexivity. Qed.
