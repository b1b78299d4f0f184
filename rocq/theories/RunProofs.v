From Verif Require Import Base GridModel GridProofs NeighModel NeighSpec NeighProofs RootsModel RootsSpec
  RootsProofs OngridProofs CoreLemmas ChargeModel ChargeProofs UnionModel UnionSpec UnionProofs LabelsModel LabelsSpec LabelsProofs RunModel.
From Coq Require Import ZifyBool ZifyNat.

(** Rank of a representative: how many representatives have a smaller voxel number. *)
Definition rank (ny nz : Z) (reps : list (Z * Z * Z)) (b : Z * Z * Z) : nat :=
  length (filter (fun b' => Nat.ltb (voxel_number ny nz b') (voxel_number ny nz b)) reps).

Section Run.
Variables nx ny nz : Z.
Hypothesis Hx : 0 < nx.
Hypothesis Hy : 0 < ny.
Hypothesis Hz : 0 < nz.
Notation N := (Z.to_nat (nx * ny * nz)).
Notation grid := (in_grid nx ny nz).
Notation num := (voxel_number ny nz).
Variable data : arr3 Q.
Variable nbs : list (offset * Q).
Hypothesis Hnbs : forall s d, In (s, d) nbs -> unit_offset s /\ (0 < d)%Q.
Variable vac : arr3 bool.
Hypothesis Hvac : forall v w, grid v -> grid w -> value_at vac w = true -> value_at vac v = false ->
  (value_at data w < value_at data v)%Q.
Hypothesis Hfloor : forall v, grid v -> (low_start < value_at data v)%Q.
Notation ismax := (is_maximum nx ny nz data (map fst nbs) vac).

Variables order1 order2 : list nat.
Hypothesis Hord1 : covers nx ny nz order1.
Hypothesis Hord2 : covers nx ny nz order2.

Notation mask0 := (get_maxima nx ny nz data (map fst nbs) vac false order1).
Notation maxima := (argwhere nx ny nz mask0).

Variable same : list (Z * Z * Z) -> nat -> nat -> outcome bool.
Variable sorted : list (Z * Z * Z) -> list nat.
Hypothesis Hsame : forall l a b, (a < length l)%nat -> (b < length l)%nat -> exists r, same l a b = Done r.
Hypothesis Hsorted : forall l, Permutation (sorted l) (seq 0 (length l)) /\
  StronglySorted (fun a b => (value_at data (nth b l (0, 0, 0)%Z) <= value_at data (nth a l (0, 0, 0)%Z))%Q) (sorted l).

Variable num_vacuum : Z.
Hypothesis Hnv : num_vacuum = 0 -> forall v, grid v -> value_at vac v = false.

Lemma mask0_spec v : grid v -> (nth (num v) mask0 false = true <-> ismax v).
Proof.
  intros G. rewrite (maxima_spec nx ny nz Hx Hy Hz); auto.
  - unfold is_maximum. tauto.
  - intros s Hs. apply in_map_iff in Hs as ([s' d] & <- & H). now apply (Hnbs s' d).
Qed.

Lemma reshape_num (m : list bool) v : grid v -> value_at (reshape false m ny nz) v = nth (num v) m false.
Proof.
  intros G. destruct v as [[i j] k]. unfold reshape, value_at. rewrite <- flat_voxel_number. reflexivity.
Qed.

Theorem run_correct fuel : (2 * N + 2 <= fuel)%nat ->
  exists lab bs L0 E,
    ongrid_run nx ny nz data nbs vac num_vacuum same sorted order1 order2 fuel = Done (lab, bs) /\
    merged nx ny nz data (map fst nbs) vac maxima (same maxima) (sorted maxima) L0 (map fst bs) E /\
    length lab = N /\
    (forall v, grid v -> value_at vac v = true -> nth_error lab (num v) = Some (-1)) /\
    (forall v, grid v -> value_at vac v = false ->
       exists m b, ascends nx ny nz data nbs v m /\ ismax m /\ In b (map fst bs) /\
         connected E (num m) (num b) /\
         nth_error lab (num v) = Some (Z.of_nat (rank ny nz (map fst bs) b))).
Proof.
  intros Hf. unfold ongrid_run. set (mx := maxima).
  destruct (argwhere_spec nx ny nz Hx Hy Hz mask0) as (ND & _ & IN). fold mx in ND, IN.
  destruct (Hsorted mx) as [PS SS].
  destruct (initialize_correct nx ny nz Hx Hy Hz data nbs Hnbs vac Hvac mask0 ltac:(apply mask_loop_length) mask0_spec mx ND IN
     (same mx) (fun a b Ha Hb => Hsame mx a b Ha Hb) (sorted mx) PS SS Hfloor fuel Hf) as (L0 & bs & mask & E & E1 & -> & PO & M).
  rewrite E1. cbn [obind]. pose proof M as [ML MO MR MC _ _ _ _ MND MB].
  set (reps := map fst bs) in *.
  set (mask := get_maxima nx ny nz data (map fst nbs) vac false order1) in *.
  assert (RM : forall v, grid v -> (value_at (reshape false mask ny nz) v = true <-> ismax v)).
  { intros v G. rewrite reshape_num by exact G. now apply mask0_spec. }
  destruct (ongrid_correct nx ny nz Hx Hy Hz data nbs Hnbs vac) with
    (mx := reshape false mask ny nz) (L0 := L0) (order := order2) (num_vacuum := num_vacuum) (fuel := fuel)
    as (lab & root & nb & E2 & DL & LR & RT).
  { intros v w Gv Gw Vw Vv. apply Qlt_le_weak. now apply Hvac. }
  { intros v G. rewrite (RM v G). unfold is_maximum. tauto. }
  { exact ML. }
  { intros v G V. apply MO; [exact G|]. intros (_ & K & _). congruence. }
  { intros m G Mm. apply (RM m G) in Mm. destruct (MR m Mm) as (b & [Tb _] & K1 & K2 & _).
    exists b. split; [apply Tb|]. split; [apply RM; [apply Tb|exact Tb]|]. auto. }
  { exact Hord2. }
  { exact Hnv. }
  { pose proof (Nat.log2_up_le_lin N). lia. }
  rewrite E2. cbn [obind].
  destruct DL as (DL1 & DL2 & DL3 & DL4).
  assert (LAB : forall v c, grid v -> nth_error root (num v) = Some c -> exists l, nth_error lab (num v) = Some l).
  { intros v c G Hc. destruct (nth_error lab (num v)) eqn:K; [eauto|]. apply nth_error_None in K.
    assert (num v < length root)%nat by (apply nth_error_Some; congruence). lia. }
  (* roots of representatives *)
  assert (RB : forall b, In b reps -> ismax b /\ nth_error root (num b) = Some (Z.of_nat (num b))).
  { intros b Hb. destruct (MB b Hb) as [[Tb _] Lb]. pose proof Tb as (Gb & Vb & Hb').
    split; [exact Tb|]. destruct (RT b Gb) as [_ K]. destruct (K Vb) as (m & A & Gm & Mm & Em).
    assert (m = b).
    { apply (ascends_fun nx ny nz Hx Hy Hz data nbs Hnbs b m A Gb). now apply ascends_top. }
    subst m. congruence. }
  assert (VR : forall v, grid v -> value_at vac v = false -> exists m b, ascends nx ny nz data nbs v m /\ ismax m /\
     In b reps /\ connected E (num m) (num b) /\ nth_error root (num v) = Some (Z.of_nat (num b))).
  { intros v G V. destruct (RT v G) as [_ K]. destruct (K V) as (m & A & Gm & Mm & Em). apply (RM m Gm) in Mm.
    destruct (MR m Mm) as (b & [Tb _] & K1 & K2 & K3 & _). exists m, b. split; [exact A|]. split; [exact Mm|]. split; [exact K3|].
    split; [apply MC; [exact Mm|exact Tb|congruence]|congruence]. }
  assert (RK : forall b, In b reps -> nth_error lab (num b) = Some (Z.of_nat (rank ny nz reps b))).
  { intros b Hb. destruct (RB b Hb) as [Mb Rb]. destruct (LAB b _ (proj1 Mb) Rb) as (l & Hl). rewrite Hl. f_equal.
    destruct (DL2 _ _ _ Rb Hl) as [D1 D2]. specialize (D2 ltac:(lia)).
    set (lb := fun b' => nth (num b') lab 0).
    assert (LB : forall b', In b' reps -> nth_error lab (num b') = Some (lb b')).
    { intros b' Hb'. destruct (RB b' Hb') as [Mb' Rb']. destruct (LAB b' _ (proj1 Mb') Rb') as (l' & Hl').
      unfold lb. rewrite (nth_error_nth _ _ _ Hl'). exact Hl'. }
    assert (CNT : Permutation (map lb (filter (fun b' => Nat.ltb (num b') (num b)) reps)) (zrange l)).
    { apply NoDup_Permutation; [|apply zrange_NoDup|].
      - apply NoDup_map_inj_in; [now apply NoDup_filter|]. intros u w Hu Hw EQ. apply filter_In in Hu as [Hu _], Hw as [Hw _].
        destruct (RB u Hu) as [Mu Ru], (RB w Hw) as [Mw Rw].
        destruct (DL4 _ _ _ _ _ _ Ru Rw (LB u Hu) (LB w Hw)) as [Q1 _]. apply Q1 in EQ.
        apply (num_inj nx ny nz); [apply Mu|apply Mw|lia].
      - intros k. rewrite in_zrange, in_map_iff. split.
        + intros (u & <- & Hu). apply filter_In in Hu as [Hu Lt]. destruct (RB u Hu) as [Mu Ru].
          destruct (DL2 _ _ _ Ru (LB u Hu)) as [_ Z2]. specialize (Z2 ltac:(lia)).
          destruct (DL4 _ _ _ _ _ _ Ru Rb (LB u Hu) Hl) as [_ Q2]. split; [lia|]. apply Q2. lia.
        + intros Hk. destruct (DL3 (Z.to_nat k) ltac:(lia)) as (i & Hi). rewrite Z2Nat.id in Hi by lia.
          assert (Li : (i < N)%nat) by (rewrite <- LR, <- DL1; apply nth_error_Some; congruence).
          destruct (unflat_in_grid nx ny nz Hx Hy Hz i Li) as [Gv Ev]. set (v := unflat ny nz (Z.of_nat i)) in *.
          rewrite <- Ev in Hi. destruct (nth_error root (num v)) as [c|] eqn:Rv.
          2:{ apply nth_error_None in Rv. lia. }
          destruct (DL2 _ _ _ Rv Hi) as [Z1 _].
          assert (Vv : value_at vac v = false).
          { destruct (value_at vac v) eqn:K; [|reflexivity]. destruct (RT v Gv) as [K2 _]. specialize (K2 K).
            assert (c = -1) by congruence. apply Z1 in H. lia. }
          destruct (VR v Gv Vv) as (m & u & _ & _ & Hu & _ & Ru). assert (c = Z.of_nat (num u)) by congruence. subst c.
          destruct (RB u Hu) as [Mu Ru'].
          destruct (DL4 _ _ _ _ _ _ Rv Ru' Hi (LB u Hu)) as [Q1 _].
          exists u. assert (EK : lb u = k) by (symmetry; now apply Q1). split; [exact EK|].
          apply filter_In. split; [exact Hu|]. apply Nat.ltb_lt.
          destruct (DL4 _ _ _ _ _ _ Ru' Rb (LB u Hu) Hl) as [_ Q2]. rewrite EK in Q2. assert (k < l) by lia. apply Q2 in H. lia. }
    apply Permutation_length in CNT. rewrite map_length, zrange_length in CNT. unfold rank. lia. }
  exists lab, bs, L0, E. split; [reflexivity|]. split; [exact M|]. split; [congruence|]. split.
  - intros v G V. destruct (RT v G) as [K _]. specialize (K V). destruct (LAB v _ G K) as (l & Hl).
    destruct (DL2 _ _ _ K Hl) as [Z1 _]. rewrite Hl. f_equal. now apply Z1.
  - intros v G V. destruct (VR v G V) as (m & b & A & Mm & Hb & C & Rv). exists m, b.
    split; [exact A|]. split; [exact Mm|]. split; [exact Hb|]. split; [exact C|].
    destruct (LAB v _ G Rv) as (l & Hl). destruct (RB b Hb) as [Mb Rb].
    destruct (DL4 _ _ _ _ _ _ Rv Rb Hl (RK b Hb)) as [Q1 _]. rewrite Hl. f_equal. now apply Q1.
Qed.

(** Consequences: labels are below the number of representatives, so integration
    conserves; the i-th representative carries label i for all i exactly when the
    representatives are listed in voxel order. *)
Lemma rank_lt reps b : In b reps -> (rank ny nz reps b < length reps)%nat.
Proof.
  unfold rank. induction reps as [|a l IH]; intros H; [contradiction|]. cbn [filter length].
  destruct H as [->|H].
  - rewrite Nat.ltb_irrefl. clear IH. induction l as [|c l IH]; cbn [filter length]; [lia|].
    destruct (Nat.ltb (num c) (num b)); cbn [length]; lia.
  - specialize (IH H). destruct (Nat.ltb (num a) (num b)); cbn [length]; lia.
Qed.

Theorem run_conserves fuel charge vol : (2 * N + 2 <= fuel)%nat -> length charge = N ->
  exists lab bs, ongrid_run nx ny nz data nbs vac num_vacuum same sorted order1 order2 fuel = Done (lab, bs) /\
    let r := get_basin_charges_and_volumes charge lab vol (length bs) in
    length (i_charges r) = length bs /\
    (qsum (i_charges r) + i_vcharge r == qsum charge / inject_Z (nx * ny * nz))%Q /\
    (qsum (i_volumes r) + i_vvolume r == vol)%Q.
Proof.
  intros Hf LC. destruct (run_correct fuel Hf) as (lab & bs & L0 & E & E1 & M & LL & V1 & V2).
  exists lab, bs. split; [exact E1|]. cbv zeta.
  pose proof (Z.mul_pos_pos nx ny Hx Hy). pose proof (Z.mul_pos_pos (nx * ny) nz ltac:(lia) Hz).
  assert (FL : Forall (fun l => l < Z.of_nat (length bs)) lab).
  { apply Forall_forall. intros l Hl. apply In_nth_error in Hl as (i & Hi).
    assert (Li : (i < N)%nat) by (rewrite <- LL; apply nth_error_Some; congruence).
    destruct (unflat_in_grid nx ny nz Hx Hy Hz i Li) as [Gv Ev]. rewrite <- Ev in Hi.
    destruct (value_at vac (unflat ny nz (Z.of_nat i))) eqn:K.
    - rewrite (V1 _ Gv K) in Hi. injection Hi as <-. lia.
    - destruct (V2 _ Gv K) as (m & b & _ & _ & Hb & _ & R). rewrite R in Hi. injection Hi as <-.
      pose proof (rank_lt _ _ Hb) as RL. rewrite map_length in RL. lia. }
  split.
  - apply (integration_exact charge lab vol (length bs)); [congruence|exact FL].
  - replace (inject_Z (nx * ny * nz)) with (inject_Z (Z.of_nat (length charge))) by (rewrite LC; f_equal; lia).
    apply integration_conserves; [congruence|exact FL|]. intros K. rewrite K in LC. cbn in LC. lia.
Qed.
End Run.

(** Alignment of positions with labels. *)
Lemma rank_sorted ny nz reps : StronglySorted (fun a b => (voxel_number ny nz a < voxel_number ny nz b)%nat) reps ->
  forall i b, nth_error reps i = Some b -> rank ny nz reps b = i.
Proof.
  unfold rank. induction 1 as [|a l S IH F]; intros [|i] b H; try discriminate; cbn [filter nth_error] in *.
  - injection H as <-. rewrite Nat.ltb_irrefl. rewrite Forall_forall in F.
    assert (E : filter (fun b' => Nat.ltb (voxel_number ny nz b') (voxel_number ny nz a)) l = []); [|now rewrite E].
    clear -F. induction l as [|c l IH]; [reflexivity|]. cbn [filter]. pose proof (F c (or_introl eq_refl)).
    replace (Nat.ltb (voxel_number ny nz c) (voxel_number ny nz a)) with false by lia. apply IH. intros x Hx. apply F. now right.
  - rewrite Forall_forall in F. pose proof (F b (nth_error_In _ _ H)).
    replace (Nat.ltb (voxel_number ny nz a) (voxel_number ny nz b)) with true by lia. cbn [length]. f_equal. now apply IH.
Qed.

Lemma sorted_rank ny nz reps : (forall i b, nth_error reps i = Some b -> rank ny nz reps b = i) ->
  StronglySorted (fun a b => (voxel_number ny nz a < voxel_number ny nz b)%nat) reps.
Proof.
  intros H.
  assert (MONO : forall a b, (voxel_number ny nz a <= voxel_number ny nz b)%nat -> (rank ny nz reps a <= rank ny nz reps b)%nat).
  { intros a b L. unfold rank. clear H. induction reps as [|c l IH]; cbn [filter]; [lia|].
    destruct (Nat.ltb_spec (voxel_number ny nz c) (voxel_number ny nz a));
    destruct (Nat.ltb_spec (voxel_number ny nz c) (voxel_number ny nz b)); cbn [length]; lia. }
  assert (PW : forall i j a b, (i < j)%nat -> nth_error reps i = Some a -> nth_error reps j = Some b ->
     (voxel_number ny nz a < voxel_number ny nz b)%nat).
  { intros i j a b L Ha Hb. destruct (Nat.lt_ge_cases (voxel_number ny nz a) (voxel_number ny nz b)) as [K|K]; [exact K|].
    apply MONO in K. rewrite (H _ _ Ha), (H _ _ Hb) in K. lia. }
  clear H MONO. induction reps as [|a l IH]; constructor.
  - apply IH. intros i j x y L Hx Hy. apply (PW (S i) (S j)); [lia|exact Hx|exact Hy].
  - apply Forall_forall. intros b Hb. apply In_nth_error in Hb as (j & Hj). apply (PW 0%nat (S j)); [lia|reflexivity|exact Hj].
Qed.

(** ** value profiles *)
Lemma deep_minima_spec tol vs mx ms :
  (forall m, In m ms -> exists l r, last_below m mx = Some l /\ first_above m mx = Some r) ->
  exists f, deep_minima tol vs mx ms = Done f /\
    forall m, In m f <-> In m ms /\ exists l r, last_below m mx = Some l /\ first_above m mx = Some r /\
      let h := Qmax2 (vat vs l) (vat vs r) in (tol < (h - vat vs m) / h)%Q.
Proof.
  induction ms as [|m ms IH]; intros H; cbn [deep_minima].
  - exists []. split; [reflexivity|]. intros m. cbn. tauto.
  - destruct (H m (or_introl eq_refl)) as (l & r & El & Er). rewrite El, Er.
    destruct (IH (fun m' Hm => H m' (or_intror Hm))) as (f & Ef & Hf). rewrite Ef. cbn [obind].
    eexists. split; [reflexivity|]. intros m'.
    destruct (Qltb_spec tol ((Qmax2 (vat vs l) (vat vs r) - vat vs m) / Qmax2 (vat vs l) (vat vs r))) as [LT|GE]; cbn [In]; rewrite Hf.
    + split.
      * intros [<-|[H1 H2]]; [|split; [now right|exact H2]]. split; [now left|]. exists l, r. auto.
      * intros [[<-|H1] H2]; [now left|]. right. split; assumption.
    + split.
      * intros [H1 H2]. split; [now right|exact H2].
      * intros [[<-|H1] (l' & r' & E1 & E2 & K)]; [|split; [exact H1|exists l', r'; auto]].
        exfalso. rewrite El in E1. rewrite Er in E2. injection E1 as <-. injection E2 as <-. cbv zeta in K. lra.
Qed.

Lemma last_below_some m l : (exists x, In x l /\ (x < m)%nat) -> exists y, last_below m l = Some y.
Proof.
  intros (x & Hi & L). unfold last_below.
  destruct (rev (filter (fun x => Nat.ltb x m) l)) as [|y t] eqn:E; [|eauto]. exfalso.
  assert (K : In x (rev (filter (fun x => Nat.ltb x m) l))) by (apply -> in_rev; apply filter_In; split; [exact Hi|lia]).
  rewrite E in K. contradiction.
Qed.
Lemma first_above_some m l : (exists x, In x l /\ (m < x)%nat) -> exists y, first_above m l = Some y.
Proof.
  intros (x & Hi & L). unfold first_above.
  destruct (filter (fun x => Nat.ltb m x) l) as [|y t] eqn:E; [|eauto]. exfalso.
  assert (K : In x (filter (fun x => Nat.ltb m x) l)) by (apply filter_In; split; [exact Hi|lia]).
  rewrite E in K. contradiction.
Qed.

(** Both ends are local maxima of the profile (strictly at the far end): the test
    never reads outside the array, and accepts exactly when no inner minimum is
    deeper than the tolerance relative to the higher of its two flanking maxima. *)
Theorem no_valley_spec tol vs : (2 <= length vs)%nat ->
  (vat vs 1 <= vat vs 0)%Q -> (vat vs (length vs - 2) < vat vs (length vs - 1))%Q ->
  exists r, no_valley tol vs = Done r /\
    (r = true <-> forall m, (0 < m < length vs - 1)%nat ->
       (vat vs m < vat vs (m - 1))%Q -> (vat vs m <= vat vs (m + 1))%Q ->
       exists l r, last_below m (profile_maxima vs) = Some l /\ first_above m (profile_maxima vs) = Some r /\
         let h := Qmax2 (vat vs l) (vat vs r) in ((h - vat vs m) / h <= tol)%Q).
Proof.
  intros L2 E0 E1. unfold no_valley. replace (Nat.ltb (length vs) 2) with false by lia.
  assert (P0 : In 0%nat (profile_maxima vs)).
  { unfold profile_maxima. apply Qle_bool_iff in E0. rewrite E0. destruct (Qltb _ _); [apply in_or_app; left|]; now left. }
  assert (Pn : In (length vs - 1)%nat (profile_maxima vs)).
  { unfold profile_maxima. apply Qltb_lt in E1. rewrite E1. apply in_or_app. right. now left. }
  assert (MIN : forall m, In m (inner_minima vs) <-> (0 < m < length vs - 1)%nat /\ (vat vs m < vat vs (m - 1))%Q /\ (vat vs m <= vat vs (m + 1))%Q).
  { intros m. unfold inner_minima. rewrite filter_In, in_seq, andb_true_iff, Qltb_lt, Qle_bool_iff.
    split; intros (H1 & H2 & H3); repeat split; auto; lia. }
  assert (FL : forall m, In m (inner_minima vs) -> exists l r, last_below m (profile_maxima vs) = Some l /\ first_above m (profile_maxima vs) = Some r).
  { intros m Hm. apply MIN in Hm as [Hm _].
    destruct (last_below_some m (profile_maxima vs)) as (l & Hl); [exists 0%nat; split; [exact P0|lia]|].
    destruct (first_above_some m (profile_maxima vs)) as (r & Hr); [exists (length vs - 1)%nat; split; [exact Pn|lia]|].
    eauto. }
  destruct (deep_minima_spec tol vs (profile_maxima vs) (inner_minima vs) FL) as (f & Ef & Hf). rewrite Ef. cbn [obind].
  eexists. split; [reflexivity|]. split.
  - intros EF m Hm D1 D2. destruct f as [|? ?]; [|discriminate].
    assert (IM : In m (inner_minima vs)) by (apply MIN; auto). destruct (FL m IM) as (l & r & El & Er). exists l, r. split; [exact El|]. split; [exact Er|].
    cbv zeta. destruct (Qlt_le_dec tol ((Qmax2 (vat vs l) (vat vs r) - vat vs m) / Qmax2 (vat vs l) (vat vs r))) as [K|K]; [|exact K].
    exfalso. apply (proj2 (Hf m)). split; [exact IM|]. exists l, r. auto.
  - intros H. destruct f as [|m f]; [reflexivity|]. exfalso.
    destruct (proj1 (Hf m) (or_introl eq_refl)) as (IM & l & r & El & Er & K). apply MIN in IM as (I1 & I2 & I3).
    destruct (H m I1 I2 I3) as (l' & r' & El' & Er' & K'). rewrite El in El'. rewrite Er in Er'.
    injection El' as <-. injection Er' as <-. cbv zeta in *. lra.
Qed.
