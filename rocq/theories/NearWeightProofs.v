From Verif Require Import Base GridModel GridProofs CoreLemmas NeighModel NeighSpec NeighProofs RootsModel RootsSpec
  OngridProofs ChargeModel ChargeProofs UnionModel UnionSpec LabelsModel LabelsSpec LabelsProofs RunModel RunProofs NearModel NearSpec NearProofs NearRun WeightSpec WeightRun NearWeightModel.
From Coq Require Import ZifyBool ZifyNat.

Lemma add_np_ok a i x : 0 <= i < Z.of_nat (length a) -> add_np a i x = add_at a (Z.to_nat i) x.
Proof. intros H. unfold add_np. now rewrite np_idx_pos. Qed.

Lemma integ_total K l : Forall (fun cl : Q * Z => snd cl < Z.of_nat K) l -> forall st, length (i_charges st) = K -> length (i_volumes st) = K ->
  let st' := fold_left integ_step l st in length (i_charges st') = K /\ length (i_volumes st') = K /\
  (qsum (i_charges st') + i_vcharge st' == qsum (i_charges st) + i_vcharge st + qsum (map fst l))%Q /\
  (qsum (i_volumes st') + i_vvolume st' == qsum (i_volumes st) + i_vvolume st + inject_Z (Z.of_nat (length l)))%Q.
Proof.
  induction 1 as [|[c la] l Hl F IH]; intros st LC LV; cbn [fold_left map length].
  - repeat split; auto; cbn; ring.
  - cbn [snd] in Hl. unfold integ_step at 2 4 6 8 10 12. destruct (la <? 0) eqn:E.
    + destruct (IH {| i_charges := i_charges st; i_volumes := i_volumes st; i_vcharge := (i_vcharge st + c)%Q; i_vvolume := (i_vvolume st + 1)%Q |} LC LV) as (A1 & A2 & A3 & A4).
      cbn [i_charges i_volumes i_vcharge i_vvolume] in A3, A4. split; [exact A1|]. split; [exact A2|]. rewrite A3, A4. cbn [fst]. rewrite qsum_cons.
      rewrite Nat2Z.inj_succ, <- Z.add_1_r, inject_Z_plus. change (inject_Z 1) with 1%Q. split; ring.
    + destruct (IH {| i_charges := add_at (i_charges st) (Z.to_nat la) c; i_volumes := add_at (i_volumes st) (Z.to_nat la) 1; i_vcharge := i_vcharge st; i_vvolume := i_vvolume st |})
        as (A1 & A2 & A3 & A4); cbn [i_charges i_volumes]; rewrite ?add_at_length; auto.
      cbn [i_charges i_volumes i_vcharge i_vvolume] in A3, A4. split; [exact A1|]. split; [exact A2|]. rewrite A3, A4. cbn [fst].
      rewrite !qsum_add_at by lia. rewrite qsum_cons.
      rewrite Nat2Z.inj_succ, <- Z.add_1_r, inject_Z_plus. change (inject_Z 1) with 1%Q. split; ring.
Qed.

Section NW.
Variables nx ny nz : Z.
Hypothesis Hx : 0 < nx.
Hypothesis Hy : 0 < ny.
Hypothesis Hz : 0 < nz.
Notation grid := (in_grid nx ny nz).
Notation num := (voxel_number ny nz).
Variable data charge : arr3 Q.
Variable nbs facets : list (offset * Q).
Hypothesis Hnbs : forall s d, In (s, d) nbs -> unit_offset s /\ (0 < d)%Q.
Hypothesis Hfacets : forall s a, In (s, a) facets -> small_offset nx ny nz s /\ (0 < a)%Q.
Variable vac : arr3 bool.
Hypothesis Hvac : forall v w, grid v -> grid w -> value_at vac w = true -> value_at vac v = false ->
  (value_at data w < value_at data v)%Q.
Notation ismax := (is_maximum nx ny nz data (map fst nbs) vac).
Variable lab : Z * Z * Z -> Z.
Variable K : nat.
Hypothesis Hlab : forall v, grid v -> (value_at vac v = true -> lab v < 0) /\ (value_at vac v = false -> 0 <= lab v < Z.of_nat K).
Variable edge : Z * Z * Z -> bool.
Hypothesis Hedge : forall v, grid v -> edge v = true -> value_at vac v = false /\ ~ ismax v.
Notation row v := (edge_row nx ny nz data nbs facets v).
Notation best v := (snd (get_best_neighbor nx ny nz data v nbs)).

Lemma row_spec v : grid v -> edge v = true ->
  (qsum (map snd (row v)) == 1)%Q /\
  (forall n f, In (n, f) (row v) -> grid n /\ (value_at data v < value_at data n)%Q /\ value_at vac n = false).
Proof.
  intros G E. destruct (Hedge v G E) as [V NM]. unfold edge_row. change @rd with @value_at.
  set (up := flat_map _ facets).
  assert (VN : forall n, grid n -> (value_at data v < value_at data n)%Q -> value_at vac n = false).
  { intros n Gn L. destruct (value_at vac n) eqn:K1; [|reflexivity]. specialize (Hvac v n G Gn K1 V). lra. }
  assert (UP : forall n f, In (n, f) up -> grid n /\ (value_at data v < value_at data n)%Q).
  { intros n f I. apply in_flat_map in I as ([s a] & Is & I). cbn [fst snd] in I. destruct (Hfacets s a Is) as [U _].
    destruct (Qle_bool (value_at data (step_to nx ny nz v s)) (value_at data v)) eqn:Q1; [destruct I|]. destruct I as [[= <- <-]|[]].
    split; [now apply (step_small nx ny nz Hx Hy Hz)|]. apply Qnot_le_lt. intros K1. apply Qle_bool_iff in K1. congruence. }
  cbv zeta. destruct (Qeq_bool (qsum (map snd up)) 0) eqn:T.
  - split; [cbn; ring|]. intros n f [[= <- <-]|[]].
    destruct (best_steepest nx ny nz Hx Hy Hz data nbs Hnbs v G) as [[H _]|(_ & L & _)].
    + exfalso. apply NM. split; [exact G|]. split; [exact V|exact H].
    + pose proof (best_in_grid nx ny nz Hx Hy Hz data nbs Hnbs v G). auto.
  - apply Qeq_bool_neq in T. split.
    + rewrite map_map. cbn [snd]. rewrite <- (map_map snd (fun f => f / qsum (map snd up))%Q). rewrite ChargeProofs.qsum_map_div. field. exact T.
    + intros n f I. apply in_map_iff in I as ([n' f'] & [= <- <-] & I). cbn [fst]. destruct (UP n' f' I). auto.
Qed.

(** conservation over the edge loop *)
Variable order : list (Z * Z * Z).
Hypothesis Hnodup : NoDup order.
Hypothesis Horder : forall v, In v order <-> grid v /\ edge v = true.
(** the order in which edges are processed is compatible with the reference values *)
Hypothesis Hsort : forall l1 v l2 n, order = l1 ++ v :: l2 -> In n (l1 ++ [v]) -> (value_at data n <= value_at data v)%Q.

Definition Inv (st : estate) : Prop :=
  length (e_charges st) = K /\ length (e_volumes st) = K /\ (forall n, grid n -> ~ (e_fc st n == 0)%Q -> edge n = true).

Notation tot f l := (qsum (map (f : Z * Z * Z -> Q) l)).
Lemma tot_put f n x l : NoDup l -> In n l -> (tot (put f n (f n + x)%Q) l == tot f l + x)%Q.
Proof.
  induction l as [|a t IH]; intros N I; [destruct I|]. inversion N; subst. cbn [map]. rewrite !qsum_cons.
  destruct (vox_dec a n) as [->|NE].
  - rewrite put_same. assert (EQ : map (put f n (f n + x)%Q) t = map f t).
    { apply map_ext_in. intros b Hb. apply put_other. intros ->. contradiction. }
    rewrite EQ. ring.
  - destruct I as [->|I]; [congruence|]. rewrite put_other by congruence. rewrite (IH H2 I). ring.
Qed.

Lemma give_inv c vol rest r : (forall n f, In (n, f) r -> grid n /\ (edge n = true -> In n rest) /\ 0 <= lab n < Z.of_nat K) -> NoDup rest ->
  forall st, Inv st -> let st' := fold_left (give lab c vol) r st in Inv st' /\
  (qsum (e_charges st') + tot (e_fc st') rest == qsum (e_charges st) + tot (e_fc st) rest + c * qsum (map snd r))%Q /\
  (qsum (e_volumes st') + tot (e_fv st') rest == qsum (e_volumes st) + tot (e_fv st) rest + vol * qsum (map snd r))%Q.
Proof.
  intros H N. induction r as [|[n f] r IH]; intros st I; cbn [fold_left map].
  - split; [exact I|]. cbn. split; ring.
  - destruct (H n f (or_introl eq_refl)) as (Gn & En & Ln). pose proof I as (I1 & I2 & I3).
    assert (I' : Inv (give lab c vol st (n, f)) /\
      (qsum (e_charges (give lab c vol st (n, f))) + tot (e_fc (give lab c vol st (n, f))) rest == qsum (e_charges st) + tot (e_fc st) rest + c * f)%Q /\
      (qsum (e_volumes (give lab c vol st (n, f))) + tot (e_fv (give lab c vol st (n, f))) rest == qsum (e_volumes st) + tot (e_fv st) rest + vol * f)%Q).
    { unfold give. destruct (Qeq_bool (e_fc st n) 0) eqn:Z.
      - cbn [e_charges e_volumes e_fc e_fv]. rewrite !add_np_ok by lia. split; [|split].
        + split; [|split]; cbn [e_charges e_volumes e_fc]; rewrite ?add_at_length; auto.
        + rewrite qsum_add_at by lia. ring.
        + rewrite qsum_add_at by lia. ring.
      - apply Qeq_bool_neq in Z. assert (Hin : In n rest) by (apply En, I3; auto). cbn [e_charges e_volumes e_fc e_fv]. split; [|split].
        + split; [exact I1|]. split; [exact I2|]. cbn [e_fc]. intros u Gu. destruct (vox_dec u n) as [->|NE]; [auto|]. rewrite put_other by exact NE. auto.
        + rewrite tot_put by assumption. ring.
        + rewrite tot_put by assumption. ring. }
    destruct I' as (I' & C1 & C2). cbv zeta in IH |- *.
    destruct (IH (fun n' f' K' => H n' f' (or_intror K')) _ I') as (J & D1 & D2). split; [exact J|]. rewrite !qsum_cons.
    cbn [snd]. split; [rewrite D1, C1; ring|rewrite D2, C2; ring].
Qed.

Lemma edges_inv l2 : forall l1 st, order = l1 ++ l2 -> Inv st -> let st' := fold_left (edge_step nx ny nz data nbs facets lab) l2 st in
  Inv st' /\ (qsum (e_charges st') == qsum (e_charges st) + tot (e_fc st) l2)%Q /\ (qsum (e_volumes st') == qsum (e_volumes st) + tot (e_fv st) l2)%Q.
Proof.
  induction l2 as [|v l2 IH]; intros l1 st E I; cbn [fold_left map].
  - split; [exact I|]. cbn. split; ring.
  - assert (Hv : In v order) by (rewrite E; apply in_elt). apply Horder in Hv as [Gv Ev]. destruct (row_spec v Gv Ev) as [S R].
    assert (N2 : NoDup (v :: l2)) by (rewrite E in Hnodup; now apply NoDup_app_iff' in Hnodup as (_ & H & _)).
    destruct (give_inv (e_fc st v) (e_fv st v) l2 (row v)) with (st := st) as (J & C1 & C2).
    { intros n f In1. destruct (R n f In1) as (Gn & L & Vn). split; [exact Gn|]. split; [|now apply Hlab].
      intros En. assert (Hn : In n order) by now apply Horder. rewrite E in Hn. apply in_app_or in Hn as [Hn|[->|Hn]]; [| |exact Hn]; exfalso.
      - pose proof (Hsort l1 v l2 n E (in_or_app _ _ _ (or_introl Hn))). lra.
      - lra. }
    { now inversion N2. }
    { exact I. }
    destruct (IH (l1 ++ [v]) (edge_step nx ny nz data nbs facets lab st v)) as (J' & D1 & D2).
    { now rewrite <- app_assoc. }
    { exact J. }
    split; [exact J'|]. rewrite !qsum_cons. unfold edge_step in *. rewrite D1, D2, C1, C2, S. split; ring.
Qed.

Lemma edge_loop_conserves charges volumes : length charges = K -> length volumes = K ->
  let e := get_edge_charges_volumes nx ny nz data charge nbs facets lab edge order charges volumes in
  length (e_charges e) = K /\ length (e_volumes e) = K /\
  (qsum (e_charges e) == qsum charges + tot (value_at charge) order)%Q /\
  (qsum (e_volumes e) == qsum volumes + inject_Z (Z.of_nat (length order)))%Q.
Proof.
  intros LC LV. unfold get_edge_charges_volumes. set (st0 := Build_estate _ _ _ _).
  assert (I0 : Inv st0).
  { split; [exact LC|]. split; [exact LV|]. intros n G. cbn. destruct (edge n); [auto|]. intros K1. exfalso. apply K1. reflexivity. }
  destruct (edges_inv order [] st0 eq_refl I0) as ((J1 & J2 & _) & C1 & C2). split; [exact J1|]. split; [exact J2|].
  cbv zeta. rewrite C1, C2. cbn [st0 e_charges e_volumes e_fc e_fv]. split.
  - assert (EQ : map (fun v => if edge v then rd charge v else 0%Q) order = map (value_at charge) order).
    { apply map_ext_in. intros v Hv. apply Horder in Hv as [_ ->]. reflexivity. }
    rewrite EQ. reflexivity.
  - rewrite qsum_ones. reflexivity.
Qed.

(** the interior *)
Lemma interior_filter st l : fold_left (interior_step charge lab edge) l st =
  fold_left integ_step (map (fun v => (value_at charge v, lab v)) (filter (fun v => negb (edge v)) l)) st.
Proof.
  revert st. induction l as [|v t IH]; intros st; [reflexivity|]. cbn [fold_left filter]. unfold interior_step at 2.
  destruct (edge v); cbn [negb]; [apply IH|]. cbn [map fold_left]. apply IH.
Qed.
End NW.

Section Finish.
Variables nx ny nz : Z.
Hypothesis Hx : 0 < nx.
Hypothesis Hy : 0 < ny.
Hypothesis Hz : 0 < nz.
Notation N := (nx * ny * nz).
Notation grid := (in_grid nx ny nz).
Notation num := (voxel_number ny nz).
Variable data charge : arr3 Q.
Variable nbs facets : list (offset * Q).
Hypothesis Hnbs : forall s d, In (s, d) nbs -> unit_offset s /\ (0 < d)%Q.
Hypothesis Hfacets : forall s a, In (s, a) facets -> small_offset nx ny nz s /\ (0 < a)%Q.
Variable vac : arr3 bool.
Hypothesis Hvac : forall v w, grid v -> grid w -> value_at vac w = true -> value_at vac v = false ->
  (value_at data w < value_at data v)%Q.
Variable lab : Z * Z * Z -> Z.
Variable K : nat.
Hypothesis Hlab : forall v, grid v -> (value_at vac v = true -> lab v < 0) /\ (value_at vac v = false -> 0 <= lab v < Z.of_nat K).
Variable order4 : list nat.
Hypothesis Hord4 : covers nx ny nz order4.
Variable sort : list (Z * Z * Z) -> list (Z * Z * Z).
Hypothesis Hsort : forall l, Permutation (sort l) l /\ StronglySorted (fun a b => value_at charge a <= value_at charge b)%Q (sort l).

(** An edge voxel: a neighbour outside the vacuum has another label. *)
Definition edge_voxel (v : Z * Z * Z) : Prop := grid v /\ value_at vac v = false /\
  exists s w, In s (map fst nbs) /\ periodic_target nx ny nz v s w /\ value_at vac w = false /\ lab w <> lab v.
Hypothesis Hnomax : forall v, edge_voxel v -> ~ locally_highest nx ny nz data (map fst nbs) v.
Hypothesis Hagree : forall v w, edge_voxel v -> edge_voxel w -> (value_at data v < value_at data w)%Q -> (value_at charge v < value_at charge w)%Q.

Theorem finish_conserves vol :
  let r := near_weight_finish nx ny nz data charge nbs facets lab vac order4 sort K vol in
  length (nw_charges r) = K /\
  (qsum (nw_charges r) + nw_vac_charge r / inject_Z N == qsum (map (value_at charge) (voxels nx ny nz)) / inject_Z N)%Q /\
  (qsum (nw_volumes r) + nw_vac_volume r * vol / inject_Z N == vol)%Q.
Proof.
  cbv zeta. unfold near_weight_finish. set (mask := get_edges _ _ _ _ _ _ _). set (edge := fun v => nth (Z.to_nat (flat ny nz v)) mask false).
  assert (US : forall s, In s (map fst nbs) -> unit_offset s).
  { intros s Hs. apply in_map_iff in Hs as ([s' d] & <- & H). now apply (Hnbs s' d). }
  assert (ES : forall v, grid v -> (edge v = true <-> edge_voxel v)).
  { intros v G. unfold edge, mask. rewrite flat_voxel_number, (NeighProofs.edges_spec nx ny nz Hx Hy Hz) by auto. unfold edge_voxel.
    destruct v as [[i j] k]. cbn [value_at]. split.
    - intros (V & s & w & H1 & H2 & H3 & H4). split; [exact G|]. split; [exact V|]. exists s, w. repeat split; auto. now destruct w as [[? ?] ?].
    - intros (_ & V & s & w & H1 & H2 & H3 & H4). split; [exact V|]. exists s, w. repeat split; auto. now destruct w as [[? ?] ?]. }
  destruct (argwhere_spec nx ny nz Hx Hy Hz mask) as (ND & _ & IN).
  destruct (Hsort (argwhere nx ny nz mask)) as [PS SS]. set (order := sort (argwhere nx ny nz mask)) in *.
  assert (IO : forall v, In v order <-> grid v /\ edge v = true).
  { intros v. unfold edge. rewrite flat_voxel_number, <- IN. split; apply Permutation_in; [exact PS|now apply Permutation_sym]. }
  assert (NO : NoDup order) by (eapply Permutation_NoDup; [apply Permutation_sym; exact PS|exact ND]).
  assert (HE : forall v, grid v -> edge v = true -> value_at vac v = false /\ ~ is_maximum nx ny nz data (map fst nbs) vac v).
  { intros v G E. apply (ES v G) in E. split; [apply E|]. intros (_ & _ & H). exact (Hnomax v E H). }
  assert (SO : forall l1 v l2 n, order = l1 ++ v :: l2 -> In n (l1 ++ [v]) -> (value_at data n <= value_at data v)%Q).
  { intros l1 v l2 n E I. apply Qnot_lt_le. intros L.
    assert (Iv : In v order) by (rewrite E; apply in_elt). assert (In_ : In n order).
    { rewrite E. apply in_app_or in I as [I|[->|[]]]; [apply in_or_app; now left|apply in_elt]. }
    apply IO in Iv as [Gv Ev], In_ as [Gn En]. apply ES in Ev, En; try assumption.
    pose proof (Hagree v n Ev En L) as LC. apply in_app_or in I as [I|[->|[]]]; [|lra].
    rewrite E in SS. clear - SS I LC. induction l1 as [|a l1 IH]; [destruct I|]. cbn in SS. inversion SS as [|? ? S1 F]; subst. destruct I as [->|I]; [|auto].
    rewrite Forall_forall in F. specialize (F v ltac:(apply in_elt)). cbv beta in F. lra. }
  unfold interior. rewrite interior_filter.
  set (rest := filter (fun v => negb (edge v)) (voxels nx ny nz)).
  set (st0 := Build_integ _ _ _ _).
  destruct (integ_total K (map (fun v => (value_at charge v, lab v)) rest)) with (st := st0) as (A1 & A2 & A3 & A4).
  { apply Forall_forall. intros cl Hc. apply in_map_iff in Hc as (v & <- & Hv). apply filter_In in Hv as [Hv _]. apply in_voxels in Hv. cbn [snd].
    destruct (Hlab v Hv) as [H1 H2]. destruct (value_at vac v); [specialize (H1 eq_refl)|specialize (H2 eq_refl)]; lia. }
  { apply repeat_length. }
  { apply repeat_length. }
  set (st := fold_left integ_step _ st0) in *.
  destruct (edge_loop_conserves nx ny nz Hx Hy Hz data charge nbs facets Hnbs Hfacets vac Hvac lab K Hlab edge HE order NO IO SO
     (i_charges st) (i_volumes st) A1 A2) as (B1 & B2 & B3 & B4).
  cbn [nw_charges nw_volumes nw_vac_charge nw_vac_volume]. set (e := get_edge_charges_volumes _ _ _ _ _ _ _ _ _ _ _ _) in *.
  assert (PV : Permutation (rest ++ order) (voxels nx ny nz)).
  { apply NoDup_Permutation; [| apply vox_nodup|].
    - apply NoDup_app_iff2; [apply NoDup_filter, vox_nodup|exact NO|]. intros v Hv Hv'. apply filter_In in Hv as [_ Hv]. apply IO in Hv' as [_ E]. rewrite E in Hv. discriminate.
    - intros v. rewrite in_app_iff. unfold rest. rewrite filter_In, IO, in_voxels. destruct (edge v); cbn; intuition discriminate. }
  cbn [st0 i_charges i_volumes i_vcharge i_vvolume] in A3, A4. rewrite qsum_repeat0 in A3, A4. rewrite map_map in A3. cbn [fst] in A3. rewrite map_length in A4.
  assert (NP : 0 < N) by (pose proof (Z.mul_pos_pos nx ny Hx Hy); apply Z.mul_pos_pos; lia).
  assert (NQ : ~ (inject_Z N == 0)%Q). { change 0%Q with (inject_Z 0). rewrite inject_Z_injective. lia. }
  split; [now rewrite map_length|]. split.
  - rewrite ChargeProofs.qsum_map_div, B3, <- (qsum_perm _ _ (Permutation_map (value_at charge) PV)), map_app, qsum_app.
    rewrite <- (Qmult_inj_r _ _ (inject_Z N)) by exact NQ.
    setoid_replace ((qsum (i_charges st) + qsum (map (value_at charge) order)) / inject_Z N + i_vcharge st / inject_Z N)%Q
      with ((qsum (i_charges st) + i_vcharge st + qsum (map (value_at charge) order)) / inject_Z N)%Q by (field; exact NQ).
    rewrite A3. change (fun x : Z * Z * Z => value_at charge x) with (value_at charge). field. exact NQ.
  - rewrite qsum_map_scale_div, B4.
    assert (CN : (inject_Z N == inject_Z (Z.of_nat (length rest)) + inject_Z (Z.of_nat (length order)))%Q).
    { rewrite <- inject_Z_plus, <- Nat2Z.inj_add, <- app_length, (Permutation_length PV), (voxels_length nx ny nz Hx Hy Hz). now rewrite Z2Nat.id by lia. }
    setoid_replace ((qsum (i_volumes st) + inject_Z (Z.of_nat (length order))) * vol / inject_Z N + i_vvolume st * vol / inject_Z N)%Q
      with ((qsum (i_volumes st) + i_vvolume st + inject_Z (Z.of_nat (length order))) * vol / inject_Z N)%Q by (field; exact NQ).
    rewrite A4. setoid_replace (0 + 0 + inject_Z (Z.of_nat (length rest)) + inject_Z (Z.of_nat (length order)))%Q with (inject_Z N) by (rewrite CN; ring).
    field. exact NQ.
Qed.
End Finish.

(** The whole run. *)
Theorem near_weight_conserves : forall nx ny nz, 2 <= nx -> 2 <= ny -> 2 <= nz ->
  forall data charge nbs facets, (forall s d, In (s, d) nbs -> unit_offset s /\ (0 < d)%Q) ->
  (forall s a, In (s, a) facets -> small_offset nx ny nz s /\ (0 < a)%Q) ->
  forall dir2lat vac, (forall v w, in_grid nx ny nz v -> in_grid nx ny nz w ->
     value_at vac w = true -> value_at vac v = false -> (value_at data w < value_at data v)%Q) ->
  (forall v, in_grid nx ny nz v -> (low_start < value_at data v)%Q) ->
  forall order1 order2 order3 order4, covers nx ny nz order1 -> covers nx ny nz order2 -> covers nx ny nz order3 -> covers nx ny nz order4 ->
  forall same sorted, (forall l a b, (a < length l)%nat -> (b < length l)%nat -> exists r, same l a b = Done r) ->
  (forall l, Permutation (sorted l) (seq 0 (length l)) /\
    StronglySorted (fun a b => (value_at data (nth b l (0, 0, 0)%Z) <= value_at data (nth a l (0, 0, 0)%Z))%Q) (sorted l)) ->
  forall sort, (forall l, Permutation (sort l) l /\ StronglySorted (fun a b => value_at charge a <= value_at charge b)%Q (sort l)) ->
  forall num_vacuum, (num_vacuum = 0 -> forall v, in_grid nx ny nz v -> value_at vac v = false) ->
  forall fuel scheds vol, (2 * Z.to_nat (nx * ny * nz) + 2 <= fuel)%nat ->
  forall lab r bs,
  near_weight_run nx ny nz data charge nbs facets dir2lat vac num_vacuum same sorted order1 order2 order3 order4 sort fuel scheds vol = Done (Some (lab, r), bs) ->
  (forall v, edge_voxel nx ny nz nbs vac lab v -> ~ locally_highest nx ny nz data (map fst nbs) v) ->
  (forall v w, edge_voxel nx ny nz nbs vac lab v -> edge_voxel nx ny nz nbs vac lab w ->
     (value_at data v < value_at data w)%Q -> (value_at charge v < value_at charge w)%Q) ->
  length (nw_charges r) = length bs /\
  (qsum (nw_charges r) + nw_vac_charge r / inject_Z (nx * ny * nz) ==
     qsum (map (value_at charge) (voxels nx ny nz)) / inject_Z (nx * ny * nz))%Q /\
  (qsum (nw_volumes r) + nw_vac_volume r * vol / inject_Z (nx * ny * nz) == vol)%Q.
Proof.
  intros nx ny nz Hx Hy Hz data charge nbs facets Hnbs Hfac dir2lat vac Hvac Hfl o1 o2 o3 o4 H1 H2 H3 H4 same sorted Hs Hso sort Hsort nv Hnv fuel scheds vol Hf lab r bs E Hm Ha.
  destruct (near_run_correct nx ny nz Hx Hy Hz data nbs Hnbs dir2lat vac Hvac Hfl o1 o2 o3 H1 H2 H3 same sorted Hs Hso nv Hnv fuel scheds Hf)
    as (bs' & L0 & E0 & fi & res & K1 & M & F1 & F2 & R & _).
  unfold near_weight_run in E. rewrite K1 in E. cbn [obind] in E. destruct res as [lab'|]; [|discriminate]. injection E as <- <- <-. specialize (R lab' eq_refl).
  assert (FB : forall v, in_grid nx ny nz v -> value_at vac v = false -> 0 <= fi v < Z.of_nat (length bs')).
  { intros v G V. destruct (F2 v G V) as (m & b & _ & _ & Hb & _ & ->). pose proof (rank_lt nx ny nz data nbs Hnbs vac Hvac Hfl same sorted Hs Hso nv Hnv _ b Hb) as RL. rewrite map_length in RL. lia. }
  apply finish_conserves; try assumption; try lia.
  intros v G. destruct (R v G) as [R1 R2]. split.
  - intros V. rewrite R1 by exact V. lia.
  - intros V. destruct (R2 V) as [(_ & m & _ & (Gm & Vm & _) & ->)|(_ & ->)]; now apply FB.
Qed.
