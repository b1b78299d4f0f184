(** Concrete instances used by [WeightProps]. *)
From Verif Require Import Base GridModel NeighModel NeighSpec RootsModel RootsSpec UnionModel UnionSpec
  GridProofs NeighProofs RootsProofs OngridProofs LabelsModel LabelsSpec LabelsProofs RunModel RunProofs LabelsLemmas WeightModel WeightSpec WeightProofs WeightRun.

Definition ring_nbs : list (offset * Q) := [((0, 0, -1), 1%Q); ((0, 0, 1), 1%Q)].
Lemma ring_nbs_ok : forall s d, In (s, d) ring_nbs -> unit_offset s /\ (0 < d)%Q.
Proof.
  unfold ring_nbs. cbn [In]. intros s d H.
  repeat (destruct H as [[= <- <-]|H]; [split; [unfold unit_offset; lia|reflexivity]|]). contradiction.
Qed.
Lemma ring_facets_ok n : 1 <= n -> forall s d, In (s, d) ring_nbs -> small_offset 1 1 n s /\ (0 < d)%Q.
Proof.
  unfold ring_nbs. cbn [In]. intros Hn s d H.
  repeat (destruct H as [[= <- <-]|H]; [split; [unfold small_offset; lia|reflexivity]|]). contradiction.
Qed.

(** The assumptions of the weight theorems, bundled. *)
Record weight_setting nx ny nz (data : arr3 Q) (nbs facets : list (offset * Q)) (vac : arr3 bool) (order1 : list nat)
    (same : list (Z * Z * Z) -> nat -> nat -> outcome bool) (sorted : list (Z * Z * Z) -> list nat) (fuel : nat) : Prop := {
  ws_dim : 0 < nx /\ 0 < ny /\ 0 < nz;
  ws_nbs : forall s d, In (s, d) nbs -> unit_offset s /\ (0 < d)%Q;
  ws_facets : forall s a, In (s, a) facets -> small_offset nx ny nz s /\ (0 < a)%Q;
  (* the vacuum lies below everything else *)
  ws_vac : forall v w, in_grid nx ny nz v -> in_grid nx ny nz w -> value_at vac w = true -> value_at vac v = false ->
     (value_at data w < value_at data v)%Q;
  ws_floor : forall v, in_grid nx ny nz v -> (low_start < value_at data v)%Q;
  ws_order : covers nx ny nz order1;
  ws_same : forall l a b, (a < length l)%nat -> (b < length l)%nat -> exists r, same l a b = Done r;
  ws_sorted : forall l, Permutation (sorted l) (seq 0 (length l)) /\
    StronglySorted (fun a b => (value_at data (nth b l (0, 0, 0)%Z) <= value_at data (nth a l (0, 0, 0)%Z))%Q) (sorted l);
  ws_fuel : (2 * Z.to_nat (nx * ny * nz) + 2 <= fuel)%nat;
  (* fewer than a million maxima, so that 1e-6 is below 1/number of basins *)
  ws_few : (Z.of_nat (length (argwhere nx ny nz (get_maxima nx ny nz data (map fst nbs) vac false order1))) < 10 ^ 6)%Z
}.

Section Thm.
Context {nx ny nz : Z} {data charge : arr3 Q} {nbs facets : list (offset * Q)} {vac : arr3 bool} {order1 : list nat}
  {same : list (Z * Z * Z) -> nat -> nat -> outcome bool} {sorted : list (Z * Z * Z) -> list nat} {fuel : nat}.
Hypothesis WS : weight_setting nx ny nz data nbs facets vac order1 same sorted fuel.
Notation n3 := (inject_Z (nx * ny * nz)).
Notation chgV := (fun v => value_at charge v / n3)%Q.
Notation run := (fun vol => weight_run nx ny nz data charge nbs facets vac same sorted order1 fuel vol).
Notation grid := (in_grid nx ny nz).
Notation num := (voxel_number ny nz).
Notation ismax := (is_maximum nx ny nz data (map fst nbs) vac).
Notation mx := (argwhere nx ny nz (get_maxima nx ny nz data (map fst nbs) vac false order1)).
Notation cells := (outside_vacuum nx ny nz vac).
Notation vorV := (periodic_neighbours nx ny nz facets).
Notation stpV := (steepest nx ny nz data nbs).

Lemma run_full vol :
  let o := run vol in
  (o = Raised /\ exists v, In v cells /\ (value_at charge v <= 0)%Q) \/
  exists out L0 reps0 E share z, o = Done out /\
    merged nx ny nz data (map fst nbs) vac mx (same mx) (sorted mx) L0 reps0 E /\
    (let reps := map fst (wo_reps out) in
    Permutation reps0 reps /\ StronglySorted (fun a b => (num a < num b)%nat) reps /\
    length (wo_labels out) = Z.to_nat (nx * ny * nz) /\
    (forall v, grid v -> value_at vac v = true -> nth_error (wo_labels out) (num v) = Some (-1)) /\
    weight_result (value_at data) chgV (vol / n3) ismax vorV stpV cells (length reps) (group_of ny nz reps E)
      share (fun v => nth_error (wo_labels out) (num v)) (wo_charges out) (wo_volumes out) /\
    ((forall v n c, In v cells -> ~ ismax v -> mixed (value_at data) vorV stpV share v -> uphill (value_at data) vorV stpV v n ->
        ((share n c == 1)%Q -> Z.of_nat c <> z) /\ z <> - Z.of_nat (num n) - 1) ->
     nothing_dropped cells (length reps) share ->
     ideal_shares (value_at data) ismax vorV stpV cells (group_of ny nz reps E) share) /\
    (wo_vac_charge out == qsum (map chgV (filter (fun v => value_at vac v) (voxels nx ny nz))))%Q /\
    (wo_vac_volume out == vol / n3 * inject_Z (Z.of_nat (length (filter (fun v => value_at vac v) (voxels nx ny nz)))))%Q).
Proof.
  destruct WS as [(Hx & Hy & Hz) H1 H2 H3 H4 H5 H6 H7 H8 H9]. apply weight_run_correct; assumption.
Qed.

Lemma filter_split_perm {A} (p : A -> bool) l : Permutation (filter (fun x => negb (p x)) l ++ filter p l) l.
Proof.
  induction l as [|x t IH]; cbn [filter]; [constructor|]. destruct (p x); cbn [negb].
  - apply Permutation_sym, Permutation_cons_app, Permutation_sym, IH.
  - cbn. now constructor.
Qed.

Lemma voxels_count : length (voxels nx ny nz) = Z.to_nat (nx * ny * nz).
Proof.
  destruct WS as [(Hx & Hy & Hz) _ _ _ _ _ _ _ _ _].
  assert (P : Permutation (map num (voxels nx ny nz)) (seq 0 (Z.to_nat (nx * ny * nz)))).
  { apply NoDup_Permutation; [|apply seq_NoDup|].
    - apply NoDup_map_inj_in; [apply voxels_nodup|]. intros u w Hu Hw E. apply GridProofs.in_voxels in Hu, Hw.
      rewrite <- (NeighProofs.unflat_voxel_number nx ny nz u Hu), <- (NeighProofs.unflat_voxel_number nx ny nz w Hw). now rewrite E.
    - intros i. rewrite in_map_iff, in_seq. split.
      + intros (v & <- & Hv). apply GridProofs.in_voxels in Hv. pose proof (NeighProofs.voxel_number_lt nx ny nz Hx Hy Hz v Hv). lia.
      + intros H. destruct (NeighProofs.unflat_in_grid nx ny nz Hx Hy Hz i) as [G E]; [lia|]. eexists. split; [exact E|]. now apply GridProofs.in_voxels. }
  apply Permutation_length in P. now rewrite map_length, seq_length in P.
Qed.

Lemma run_conserved vol out : run vol = Done out ->
  (qsum (wo_charges out) + wo_vac_charge out == qsum (map (fun v => value_at charge v) (voxels nx ny nz)) / n3)%Q /\
  (qsum (wo_volumes out) + wo_vac_volume out == vol)%Q.
Proof.
  intros E. assert (NZ : ~ (n3 == 0)%Q).
  { destruct WS as [(Hx & Hy & Hz) _ _ _ _ _ _ _ _ _]. intros K. assert (0 < n3)%Q; [|lra]. change 0%Q with (inject_Z 0). rewrite <- Zlt_Qlt. nia. }
  destruct (run_full vol) as [[R _]|(out' & L0 & r0 & E0 & share & z & E' & _ & _ & _ & _ & _ & WR & _ & VC & VV)]; [cbv beta in *; congruence|].
  assert (out' = out) by (cbv beta in *; congruence). subst out'. apply result_conserved in WR as [C V]. rewrite C, V, VC, VV.
  pose proof (filter_split_perm (value_at vac) (voxels nx ny nz)) as P. fold (outside_vacuum nx ny nz vac) in P. split.
  - rewrite <- qsum_app, <- map_app. change (fun v => value_at vac v) with (value_at vac). rewrite (qsum_perm _ _ (Permutation_map _ P)).
    rewrite (qsum_map_ext _ (fun v => (1 / n3) * value_at charge v)%Q) by (intros; field; exact NZ). rewrite qsum_map_scale. change (fun v => value_at charge v) with (value_at charge). field. exact NZ.
  - change (fun v => value_at vac v) with (value_at vac). setoid_replace (vol / n3 * inject_Z (Z.of_nat (length cells)) + vol / n3 * inject_Z (Z.of_nat (length (filter (value_at vac) (voxels nx ny nz)))))%Q
      with (vol / n3 * inject_Z (Z.of_nat (length (cells ++ filter (value_at vac) (voxels nx ny nz)))))%Q.
    + rewrite (Permutation_length P), voxels_count, Z2Nat.id; [field; exact NZ|]. destruct WS as [(Hx & Hy & Hz) _ _ _ _ _ _ _ _ _]. nia.
    + rewrite app_length, Nat2Z.inj_add, inject_Z_plus. field. exact NZ.
Qed.

Lemma run_labels vol out : run vol = Done out ->
  exists L0 reps0 E share, let reps := map fst (wo_reps out) in
    merged nx ny nz data (map fst nbs) vac mx (same mx) (sorted mx) L0 reps0 E /\ Permutation reps0 reps /\
    length (wo_labels out) = Z.to_nat (nx * ny * nz) /\
    (forall v, grid v -> value_at vac v = true -> nth_error (wo_labels out) (num v) = Some (-1)) /\
    weight_result (value_at data) chgV (vol / n3) ismax vorV stpV cells (length reps) (group_of ny nz reps E)
      share (fun v => nth_error (wo_labels out) (num v)) (wo_charges out) (wo_volumes out).
Proof.
  intros E. destruct (run_full vol) as [[R _]|(out' & L0 & r0 & E0 & share & z & E' & M & P & _ & L & V & WR & _)]; [cbv beta in *; congruence|].
  assert (out' = out) by (cbv beta in *; congruence). subst out'. exists L0, r0, E0, share. cbv zeta. auto.
Qed.

Lemma run_aligned vol out : run vol = Done out -> let reps := map fst (wo_reps out) in
  StronglySorted (fun a b => (num a < num b)%nat) reps /\
  forall i b, nth_error reps i = Some b -> nth_error (wo_labels out) (num b) = Some (Z.of_nat i).
Proof.
  intros E. destruct (run_full vol) as [[R _]|(out' & L0 & r0 & E0 & share & z & E' & M & P & S & L & V & WR & _)]; [cbv beta in *; congruence|].
  assert (out' = out) by (cbv beta in *; congruence). subst out'. cbv zeta. split; [exact S|]. intros i b Hb.
  assert (T : ismax b). { destruct M as [_ _ _ _ _ _ _ _ _ MB]. apply MB. apply (Permutation_in _ (Permutation_sym P)). eapply nth_error_In; eauto. }
  assert (Cb : In b cells) by (apply cells_in; split; apply T).
  destruct WR as [_ _ _ _ _ _ W6 _ _ W9]. destruct (W9 b Cb) as (c & Lc & Kc & Pc & _). cbv beta in Lc. rewrite Lc. do 2 f_equal.
  destruct (Nat.eq_dec c i) as [|NE]; [assumption|exfalso]. rewrite (W6 b i c) in Pc; [|exact Cb|exact T|exists b; split; [exact Hb|constructor]].
  apply Nat.eqb_neq in NE. rewrite NE in Pc. lra.
Qed.

Lemma run_total vol : (forall v, grid v -> value_at vac v = false -> (0 < value_at charge v)%Q) -> exists out, run vol = Done out.
Proof.
  intros P. destruct (run_full vol) as [[R (v & Cv & L)]|(out & L0 & r0 & E0 & share & z & E' & _)]; [|eauto].
  apply cells_in in Cv as [G V]. specialize (P v G V). lra.
Qed.

Lemma run_ideal vol out : run vol = Done out ->
  exists L0 reps0 E share z, let reps := map fst (wo_reps out) in
    merged nx ny nz data (map fst nbs) vac mx (same mx) (sorted mx) L0 reps0 E /\ Permutation reps0 reps /\
    weight_result (value_at data) chgV (vol / n3) ismax vorV stpV cells (length reps) (group_of ny nz reps E)
      share (fun v => nth_error (wo_labels out) (num v)) (wo_charges out) (wo_volumes out) /\
    ((forall v n c, In v cells -> ~ ismax v -> mixed (value_at data) vorV stpV share v -> uphill (value_at data) vorV stpV v n ->
        ((share n c == 1)%Q -> Z.of_nat c <> z) /\ z <> - Z.of_nat (num n) - 1) ->
     nothing_dropped cells (length reps) share ->
     ideal_shares (value_at data) ismax vorV stpV cells (group_of ny nz reps E) share).
Proof.
  intros E. destruct (run_full vol) as [[R _]|(out' & L0 & r0 & E0 & share & z & E' & M & P & _ & L & V & WR & ID & _)]; [cbv beta in *; congruence|].
  assert (out' = out) by (cbv beta in *; congruence). subst out'. exists L0, r0, E0, share, z. cbv zeta. auto.
Qed.

Lemma up_higher v n : In v cells -> ~ ismax v -> uphill (value_at data) vorV stpV v n -> In n cells /\ (value_at data v < value_at data n)%Q.
Proof.
  destruct WS as [(Hx & Hy & Hz) H1 H2 H3 H4 H5 H6 H7 H8 H9]. intros Cv NM U. pose proof Cv as Cv'. apply cells_in in Cv' as [G V].
  assert (K : grid n /\ (value_at data v < value_at data n)%Q).
  { destruct U as [(a & I & L)|[_ B]].
    - destruct (vorV_grid _ _ _ Hx Hy Hz facets H2 v n a G I) as [Gn _]. auto.
    - destruct (best_steepest nx ny nz Hx Hy Hz data nbs H1 v G) as [[H _]|[H L]].
      + exfalso. apply NM. split; [exact G|]. now split.
      + apply (steepest_fun nx ny nz Hx Hy Hz data nbs H1 v n G) in B. rewrite B. split; [now apply best_in_grid|apply L]. }
  split; [|apply K]. apply cells_in. split; [apply K|]. destruct (value_at vac n) eqn:Vn; [|reflexivity].
  destruct K as [Gn L]. specialize (H3 v n G Gn Vn V). lra.
Qed.

Lemma filter_length_lt {A} (p q : A -> bool) l x : (forall y, In y l -> p y = true -> q y = true) -> In x l -> p x = false -> q x = true ->
  (length (filter p l) < length (filter q l))%nat.
Proof.
  intros I Hx Px Qx. induction l as [|y t IH]; [destruct Hx|]. cbn [filter].
  assert (LE : (length (filter p t) <= length (filter q t))%nat).
  { clear IH Hx. induction t as [|z t IH]; cbn [filter]; [lia|].
    assert (Iz : p z = true -> q z = true) by (apply I; right; now left).
    assert (length (filter p t) <= length (filter q t))%nat by (apply IH; intros w Hw; apply I; destruct Hw; [now left|right; now right]).
    destruct (p z); [rewrite Iz by reflexivity; cbn [length]; lia|]. destruct (q z); cbn [length]; lia. }
  destruct Hx as [->|Hx].
  - rewrite Px, Qx. cbn [length]. lia.
  - assert (length (filter p t) < length (filter q t))%nat by (apply IH; auto; intros w Hw; apply I; now right).
    assert (p y = true -> q y = true) by (apply I; now left). destruct (p y); [rewrite H0 by reflexivity; cbn [length]; lia|]. destruct (q y); cbn [length]; lia.
Qed.

Lemma shares_unique basin s1 s2 : (forall v, ismax v -> exists c, basin v c) ->
  ideal_shares (value_at data) ismax vorV stpV cells basin s1 -> ideal_shares (value_at data) ismax vorV stpV cells basin s2 ->
  forall v b, In v cells -> (s1 v b == s2 v b)%Q.
Proof.
  intros HB [M1 F1 B1] [M2 F2 B2].
  assert (IND : forall k v b, In v cells -> (length (filter (fun w => Qltb (value_at data v) (value_at data w)) cells) < k)%nat -> (s1 v b == s2 v b)%Q).
  { induction k as [|k IH]; intros v b Cv Lk; [lia|].
    assert (STEP : forall n c, ~ ismax v -> uphill (value_at data) vorV stpV v n -> (s1 n c == s2 n c)%Q).
    { intros n c NM U. destruct (up_higher v n Cv NM U) as [Cn L]. apply IH; [exact Cn|].
      enough (length (filter (fun w => Qltb (value_at data n) (value_at data w)) cells) < length (filter (fun w => Qltb (value_at data v) (value_at data w)) cells))%nat by lia.
      apply (filter_length_lt _ _ _ n); [|exact Cn| |now apply Qltb_lt].
      - intros y _ Hy. apply Qltb_lt in Hy. apply Qltb_lt. lra.
      - destruct (Qltb_spec (value_at data n) (value_at data n)); [lra|reflexivity]. }
    pose proof Cv as Cv'. apply cells_in in Cv' as [G V].
    destruct WS as [(Hx & Hy & Hz) W1 W2 W3 W4 W5 W6 W7 W8 W9].
    destruct (best_steepest nx ny nz Hx Hy Hz data nbs W1 v G) as [[HM _]|[HS HL]].
    - assert (T : ismax v) by (split; [exact G|]; now split). destruct (HB v T) as [c Hc].
      rewrite (M1 v c b Cv T Hc), (M2 v c b Cv T Hc). reflexivity.
    - assert (NM : ~ ismax v).
      { intros (_ & _ & T). destruct HS as (pre & s & d & post & q & E & PT & _). assert (In s (map fst nbs)) by (rewrite E, map_app; apply in_or_app; right; now left).
        specialize (T s _ H PT). lra. }
      destruct (existsb (fun na : (Z * Z * Z) * Q => Qltb (value_at data v) (value_at data (fst na))) (vorV v)) eqn:EB.
      + apply existsb_exists in EB as ([n a] & I & L). cbn [fst] in L. apply Qltb_lt in L.
        rewrite F1, F2 by eauto. unfold inherited. apply Qmult_inj_r_ext. apply qsum_map_ext. intros [m c] Hm. cbn [fst snd].
        destruct (Qltb_spec (value_at data v) (value_at data m)) as [K|K]; [|reflexivity]. rewrite (STEP m); [reflexivity|auto|left; eauto].
      + assert (NH : forall m a, In (m, a) (vorV v) -> (value_at data m <= value_at data v)%Q).
        { intros m a HI. destruct (Qltb_spec (value_at data v) (value_at data m)) as [K|K]; [|exact K].
          exfalso. apply Bool.diff_true_false. rewrite <- EB. symmetry. apply existsb_exists. exists (m, a). split; [exact HI|now apply Qltb_lt]. }
        rewrite (B1 v _ b Cv NM NH HS), (B2 v _ b Cv NM NH HS). apply STEP; [exact NM|]. right. auto. }
  intros v b Cv. eapply IND; eauto.
Qed.
End Thm.

(** Ring of four voxels: valley 1, peak 5, valley 0, peak 4. *)
Definition rg_data : arr3 Q := reshape 0%Q [1; 5; 0; 4]%Q 1 4.
Definition rg_charge : arr3 Q := fun _ _ _ => 7%Q.
Definition rg_sorted (l : list (Z * Z * Z)) : list nat := key_sort (fun i => - value_at rg_data (nth i l (0, 0, 0)%Z))%Q (seq 0 (length l)).

Definition rg_run := weight_run 1 1 4 rg_data rg_charge ring_nbs ring_nbs no_vac never rg_sorted (seq 0 4) 20 4.
Lemma rg_setting : weight_setting 1 1 4 rg_data ring_nbs ring_nbs no_vac (seq 0 4) never rg_sorted 20.
Proof.
  constructor; try (vm_compute; lia); try (vm_compute; tauto).
  - exact ring_nbs_ok.
  - apply ring_facets_ok. lia.
  - intros [[a b] c] [[d e] f] _ _ H. discriminate H.
  - intros [[i j] k] (H1 & H2 & H3). assert (i = 0) by lia. assert (j = 0) by lia. subst.
    assert (K : k = 0 \/ k = 1 \/ k = 2 \/ k = 3) by lia. destruct K as [->|[->|[->| ->]]]; reflexivity.
  - intros l a b _ _. exists false. reflexivity.
  - intros l. unfold rg_sorted. split; [apply Permutation_sym, key_sort_perm|].
    pose proof (key_sort_sorted (fun i => - value_at rg_data (nth i l (0, 0, 0)%Z))%Q (seq 0 (length l))) as S.
    revert S. generalize (key_sort (fun i => - value_at rg_data (nth i l (0, 0, 0)%Z))%Q (seq 0 (length l))). intros l0 S.
    induction S as [|x t S IH F]; constructor; [exact IH|]. rewrite Forall_forall in *. intros y Hy. specialize (F y Hy). cbv beta in F. lra.
Qed.
Lemma rg_done : exists out, rg_run = Done out /\ map fst (wo_reps out) = [(0, 0, 1); (0, 0, 3)] /\
  wo_labels out = [1; 0; 0; 1] /\ Forall2 Qeq (wo_charges out) [98 # 36; 154 # 36]%Q.
Proof.
  eexists. split; [vm_compute; reflexivity|]. cbn [wo_reps wo_labels wo_charges map fst].
  split; [reflexivity|]. split; [reflexivity|]. repeat constructor; reflexivity.
Qed.

Notation rg_up := (fun data => uphill (value_at data) (periodic_neighbours 1 1 4 ring_nbs) (steepest 1 1 4 data ring_nbs)).
Definition rg_ideal data vac reps share := ideal_shares (value_at data) (is_maximum 1 1 4 data (map fst ring_nbs) vac)
   (periodic_neighbours 1 1 4 ring_nbs) (steepest 1 1 4 data ring_nbs) (outside_vacuum 1 1 4 vac) (group_of 1 4 reps []) share.

Lemma ring_target v s w : In s (map fst ring_nbs) -> periodic_target 1 1 4 v s w ->
  let '(i, j, k) := v in w = (i mod 1, j mod 1, (k - 1) mod 4) \/ w = (i mod 1, j mod 1, (k + 1) mod 4).
Proof.
  destruct v as [[i j] k]. unfold ring_nbs. cbn [map fst In]. intros [<-|[<-|[]]]; unfold periodic_target; intros ->;
  rewrite !Z.add_0_r; [left|right]; reflexivity.
Qed.
Lemma rg_max k : (k = 1 \/ k = 3) -> is_maximum 1 1 4 rg_data (map fst ring_nbs) no_vac (0, 0, k).
Proof.
  intros H. split; [unfold in_grid; lia|]. split; [reflexivity|]. intros s w Hs Hw. apply (ring_target (0, 0, k)) in Hw; [|exact Hs].
  destruct H as [->| ->]; destruct Hw as [->| ->]; vm_compute; discriminate.
Qed.
Lemma rg_not_max k : (k = 0 \/ k = 2) -> ~ is_maximum 1 1 4 rg_data (map fst ring_nbs) no_vac (0, 0, k).
Proof.
  intros H (_ & _ & M). assert (K : (value_at rg_data (0, 0, 1)%Z <= value_at rg_data (0, 0, k)%Z)%Q).
  { destruct H as [->| ->]; [apply (M (0, 0, 1))|apply (M (0, 0, -1))]; cbn; auto. }
  destruct H as [->| ->]; vm_compute in K; congruence.
Qed.
Lemma rg_wrong : exists out, rg_run = Done out /\
  forall share, rg_ideal rg_data no_vac (map fst (wo_reps out)) share ->
  ~ (nth 0 (wo_charges out) 0 == qsum (map (fun v => value_at rg_charge v / 4 * share v 0%nat) (outside_vacuum 1 1 4 no_vac)))%Q.
Proof.
  destruct rg_done as (out & E & R & _ & C). exists out. split; [exact E|]. intros share I. rewrite R in I. destruct I as [IM IF _].
  assert (S1 : (share (0, 0, 1)%Z 0%nat == 1)%Q).
  { rewrite (IM (0, 0, 1) 0%nat 0%nat); [reflexivity| |apply rg_max; auto|].
    - vm_compute. auto.
    - exists (0, 0, 1). split; [reflexivity|constructor]. }
  assert (S3 : (share (0, 0, 3)%Z 0%nat == 0)%Q).
  { rewrite (IM (0, 0, 3) 1%nat 0%nat); [reflexivity| |apply rg_max; auto|].
    - vm_compute. auto 10.
    - exists (0, 0, 3). split; [reflexivity|constructor]. }
  assert (S0 : (share (0, 0, 0)%Z 0%nat == 4 # 7)%Q).
  { rewrite (IF (0, 0, 0) 0%nat); [|vm_compute; auto|apply rg_not_max; auto|].
    - unfold inherited. replace (periodic_neighbours 1 1 4 ring_nbs (0, 0, 0)) with [((0, 0, 3), 1%Q); ((0, 0, 1), 1%Q)] by reflexivity.
      replace (outflow (value_at rg_data) (periodic_neighbours 1 1 4 ring_nbs) (0, 0, 0)) with 7%Q by reflexivity.
      cbn [map fst snd]. replace (value_at rg_data (0, 0, 0)) with 1%Q by reflexivity.
      replace (value_at rg_data (0, 0, 3)) with 4%Q by reflexivity. replace (value_at rg_data (0, 0, 1)) with 5%Q by reflexivity.
      replace (Qltb 1 4) with true by reflexivity. replace (Qltb 1 5) with true by reflexivity.
      rewrite !qsum_cons, S1, S3. reflexivity.
    - exists (0, 0, 3), 1%Q. split; [left; reflexivity|reflexivity]. }
  assert (S2 : (share (0, 0, 2)%Z 0%nat == 5 # 9)%Q).
  { rewrite (IF (0, 0, 2) 0%nat); [|vm_compute; auto|apply rg_not_max; auto|].
    - unfold inherited. replace (periodic_neighbours 1 1 4 ring_nbs (0, 0, 2)) with [((0, 0, 1), 1%Q); ((0, 0, 3), 1%Q)] by reflexivity.
      replace (outflow (value_at rg_data) (periodic_neighbours 1 1 4 ring_nbs) (0, 0, 2)) with 9%Q by reflexivity.
      cbn [map fst snd]. replace (value_at rg_data (0, 0, 2)) with 0%Q by reflexivity.
      replace (value_at rg_data (0, 0, 3)) with 4%Q by reflexivity. replace (value_at rg_data (0, 0, 1)) with 5%Q by reflexivity.
      replace (Qltb 0 4) with true by reflexivity. replace (Qltb 0 5) with true by reflexivity.
      rewrite !qsum_cons, S1, S3. reflexivity.
    - exists (0, 0, 1), 1%Q. split; [left; reflexivity|reflexivity]. }
  assert (N0 : (nth 0 (wo_charges out) 0 == 98 # 36)%Q).
  { inversion C; subst. cbn [nth]. assumption. }
  replace (outside_vacuum 1 1 4 no_vac) with [(0, 0, 0); (0, 0, 1); (0, 0, 2); (0, 0, 3)] by reflexivity.
  cbn [map]. rewrite !qsum_cons, N0, S0, S1, S2, S3. vm_compute. discriminate.
Qed.

(** The same ring with the deep valley as vacuum: one edge voxel, shared 3:4. *)
Definition rv_data : arr3 Q := reshape 0%Q [1; 5; -1; 4]%Q 1 4.
Definition rv_vac : arr3 bool := reshape false [false; false; true; false] 1 4.
Definition rv_run := weight_run 1 1 4 rv_data rg_charge ring_nbs ring_nbs rv_vac never rg_sorted (seq 0 4) 20 4.
Lemma rv_done : exists out, rv_run = Done out /\ wo_labels out = [0; 0; -1; 1] /\
  Forall2 Qeq (wo_charges out) [77 # 28; 70 # 28]%Q /\ (wo_vac_charge out == 7 # 4)%Q.
Proof. eexists. split; [vm_compute; reflexivity|]. cbn [wo_labels wo_charges wo_vac_charge]. split; [reflexivity|]. split; [repeat constructor; reflexivity|reflexivity]. Qed.

(** Charges that cancel: the tie-break divides by a zero basin charge. *)
Definition zr_data : arr3 Q := reshape 0%Q [1; 5; 0; 5]%Q 1 4.
Definition zr_charge : arr3 Q := fun _ _ _ => 0%Q.
Lemma zr_raised : weight_run 1 1 4 zr_data zr_charge ring_nbs ring_nbs no_vac never rg_sorted (seq 0 4) 20 4 = Raised.
Proof. vm_compute. reflexivity. Qed.

(** A vacuum voxel above its neighbours. *)
Definition hv_data : arr3 Q := reshape 0%Q [4; 1; 9; 3; 1]%Q 1 5.
Definition hv_vac : arr3 bool := reshape false [false; false; true; false; false] 1 5.
Lemma hv_raised : weight_run 1 1 5 hv_data rg_charge ring_nbs ring_nbs hv_vac never rg_sorted (seq 0 5) 20 4 = Raised.
Proof. vm_compute. reflexivity. Qed.
