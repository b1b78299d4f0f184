From Verif Require Import Base GridModel GridProofs NeighModel NeighSpec NeighProofs RootsModel RootsSpec
  RootsProofs OngridProofs CoreLemmas UnionModel UnionSpec UnionProofs LabelsModel LabelsSpec LabelsProofs RunModel RunProofs
  NearModel NearSpec NearProofs.
From Coq Require Import ZifyBool ZifyNat.

Lemma max_abs_spec r : max_norm r (max_abs r).
Proof.
  destruct r as [[a b] c]. unfold max_norm, abs_bound, max_abs. cbn [fold_left].
  assert (AB : forall x, (- Qabs' x <= x <= Qabs' x /\ 0 <= Qabs' x /\ forall m, - m <= x <= m -> Qabs' x <= m)%Q).
  { intros x. unfold Qabs'. destruct (Qltb_spec x 0) as [L|L]; (split; [lra|split; [lra|intros; lra]]). }
  destruct (AB a) as (A1 & A2 & A3), (AB b) as (B1 & B2 & B3), (AB c) as (C1 & C2 & C3).
  set (x := Qabs' a) in *. set (y := Qabs' b) in *. set (z := Qabs' c) in *. clearbody x y z.
  assert (MX : forall u v, exists w, (if Qltb u v then v else u) = w /\ (u <= w /\ v <= w)%Q /\ forall m, (u <= m -> v <= m -> w <= m)%Q).
  { intros u v. eexists. split; [reflexivity|]. destruct (Qltb_spec u v); (split; [split; lra|intros; lra]). }
  destruct (MX 0%Q x) as (w1 & -> & (D1 & D2) & D3). destruct (MX w1 y) as (w2 & -> & (E1 & E2) & E3). destruct (MX w2 z) as (w3 & -> & (F1 & F2) & F3).
  split; [repeat split; lra|]. intros m' (K1 & K2 & K3). apply F3; [apply E3; [apply D3|]|]; [lra|now apply A3|now apply B3|now apply C3].
Qed.
Lemma max_norm_nonneg r m : max_norm r m -> (0 <= m)%Q.
Proof. destruct r as [[a b] c]. intros [(K & _) _]. lra. Qed.
Lemma tiny_pos : (0 < tiny)%Q.
Proof. reflexivity. Qed.

Section NearRun.
Variables nx ny nz : Z.
Hypothesis Hx : 2 <= nx.
Hypothesis Hy : 2 <= ny.
Hypothesis Hz : 2 <= nz.
Let Hx0 : 0 < nx. Proof. lia. Qed.
Let Hy0 : 0 < ny. Proof. lia. Qed.
Let Hz0 : 0 < nz. Proof. lia. Qed.
Notation N := (Z.to_nat (nx * ny * nz)).
Notation grid := (in_grid nx ny nz).
Notation num := (voxel_number ny nz).
Variable data : arr3 Q.
Variable nbs : list (offset * Q).
Hypothesis Hnbs : forall s d, In (s, d) nbs -> unit_offset s /\ (0 < d)%Q.
Variable dir2lat : q3 * q3 * q3.
Variable vac : arr3 bool.
Hypothesis Hvac : forall v w, grid v -> grid w -> value_at vac w = true -> value_at vac v = false ->
  (value_at data w < value_at data v)%Q.
Notation ismax := (is_maximum nx ny nz data (map fst nbs) vac).
Variable mx : arr3 bool.
Hypothesis Hmx : forall v, grid v -> (value_at mx v = true <-> ismax v).
Notation grad := (near_gradients nx ny nz data nbs dir2lat vac mx).
Notation topP := (fun v => value_at mx v = true).
Notation best v := (snd (get_best_neighbor nx ny nz data v nbs)).
Notation nvox v := (near_voxel nx ny nz data nbs dir2lat v).
Notation points := (points_to nx ny nz data nbs grad).
Notation drifts := (drifts nx ny nz data nbs grad topP).

Lemma best_shift v : grid v -> value_at vac v = false -> value_at mx v = false ->
  let '(s, w) := get_best_neighbor nx ny nz data v nbs in In s (map fst nbs) /\ periodic_target nx ny nz v s w /\ unit_offset s.
Proof.
  intros G V M. destruct (nonmax_best nx ny nz Hx Hy Hz data nbs Hnbs vac Hvac mx Hmx v G V M) as (_ & _ & L & _).
  pose proof (best_neighbor_spec nx ny nz Hx0 Hy0 Hz0 data v G nbs Hnbs) as S.
  destruct (get_best_neighbor nx ny nz data v nbs) as [s w]. cbn [snd] in L. destruct S as [(_ & -> & _)|(pre & d & post & q & E & Ht & _)]; [lra|].
  split; [|split; [exact Ht|]].
  - rewrite E, map_app. apply in_or_app. right. now left.
  - apply (Hnbs s d). rewrite E. apply in_elt.
Qed.

Lemma simple_gradient v : grid v -> raw_gradient nx ny nz data dir2lat v (get_gradient_simple nx ny nz data v dir2lat).
Proof.
  intros G. destruct v as [[i j] k]. destruct G as (G1 & G2 & G3).
  assert (AX : forall s c0 h l g, (let '(a, b, c) := s in periodic_target nx ny nz (i, j, k) s h /\ periodic_target nx ny nz (i, j, k) (-a, -b, -c) l) ->
    c0 = data i j k -> g = (if Qle_bool (value_at data h) c0 && Qle_bool (value_at data l) c0 then 0%Q else ((value_at data h - value_at data l) / 2)%Q) ->
    axis_slope nx ny nz data (i, j, k) s g).
  { intros [[a b] c] c0 h l g [Ph Pl] -> ->. exists h, l. split; [exact Ph|]. split; [exact Pl|]. cbv zeta. cbn [value_at].
    destruct (Qle_bool (value_at data h) (data i j k)) eqn:E1; cbn [andb].
    - destruct (Qle_bool (value_at data l) (data i j k)) eqn:E2.
      + apply Qle_bool_iff in E1, E2. left. repeat split; auto; reflexivity.
      + right. split; [|reflexivity]. right. apply Qnot_le_lt. intros K. apply Qle_bool_iff in K. congruence.
    - right. split; [|reflexivity]. left. apply Qnot_le_lt. intros K. apply Qle_bool_iff in K. congruence. }
  unfold get_gradient_simple. cbv zeta. destruct dir2lat as [[[[a00 a01] a02] [[a10 a11] a12]] [[a20 a21] a22]].
  eexists _, _, _. split; [|split; [|split]].
  - eapply (AX (1, 0, 0) _ ((i + 1) mod nx, j, k) ((i - 1) mod nx, j, k)); [|reflexivity|reflexivity].
    cbn. rewrite !Z.add_0_r, (Z.mod_small j), (Z.mod_small k) by lia. split; [reflexivity|]. repeat f_equal; lia.
  - eapply (AX (0, 1, 0) _ (i, (j + 1) mod ny, k) (i, (j - 1) mod ny, k)); [|reflexivity|reflexivity].
    cbn. rewrite !Z.add_0_r, (Z.mod_small i), (Z.mod_small k) by lia. split; [reflexivity|]. repeat f_equal; lia.
  - eapply (AX (0, 0, 1) _ (i, j, (k + 1) mod nz) (i, j, (k - 1) mod nz)); [|reflexivity|reflexivity].
    cbn. rewrite !Z.add_0_r, (Z.mod_small i), (Z.mod_small j) by lia. split; [reflexivity|]. repeat f_equal; lia.
  - cbn [dot3]. repeat split; reflexivity.
Qed.

Lemma near_voxel_spec v : grid v -> value_at vac v = false -> value_at mx v = false ->
  near_gradient nx ny nz data nbs dir2lat v (fst (nvox v)) /\ le3 (fst (nvox v)) 1 /\
  (exists p t, nearest3 (fst (nvox v)) p /\ periodic_target nx ny nz v p t /\
    (((value_at data v < value_at data t)%Q /\ snd (nvox v) = t) \/ ((value_at data t <= value_at data v)%Q /\ steepest nx ny nz data nbs v (snd (nvox v))))) /\
  grid (snd (nvox v)) /\ (value_at data v < value_at data (snd (nvox v)))%Q /\ value_at vac (snd (nvox v)) = false.
Proof.
  intros G V M. destruct (nonmax_best nx ny nz Hx Hy Hz data nbs Hnbs vac Hvac mx Hmx v G V M) as (SB & GB & LB & VB).
  pose proof (best_shift v G V M) as BS. unfold near_voxel.
  pose proof (simple_gradient v G) as RG. set (r := get_gradient_simple nx ny nz data v dir2lat) in *. clearbody r.
  pose proof (max_abs_spec r) as MN. set (m := max_abs r) in *. clearbody m. pose proof (max_norm_nonneg r m MN) as M0.
  destruct (Qltb_spec m tiny) as [LT|GE].
  - destruct (get_best_neighbor nx ny nz data v nbs) as [[[a b] c] w]. cbn [fst snd] in *. destruct BS as (I & PT & U).
    split; [|split; [|split]].
    + exists r, m. split; [exact RG|]. split; [exact MN|]. left. split; [exact LT|]. exists (a, b, c), w. repeat split; auto; reflexivity.
    + destruct U as (U1 & U2 & U3). cbn [le3]. unfold inject_Z, Qle. cbn. lia.
    + exists (a, b, c), w. split; [|split; [exact PT|left; auto]]. cbn [nearest3].
      assert (NE : forall z, nearest_even (inject_Z z) z) by (intros z; split; [split; lra|intros [K|K]; exfalso; lra]). auto.
    + auto.
  - destruct r as [[a b] c] eqn:Er. cbn [fst snd].
    assert (Mp : (0 < m)%Q) by (pose proof tiny_pos; lra).
    assert (LE : le3 (a / m, b / m, c / m)%Q 1).
    { destruct MN as [(K1 & K2 & K3) _]. cbn [le3].
      repeat split; (apply Qle_shift_div_r || apply Qle_shift_div_l); lra. }
    set (p := round3 (a / m, b / m, c / m)%Q). set (t := step_to nx ny nz v p).
    assert (PT : periodic_target nx ny nz v p t /\ grid t).
    { apply (step_two nx ny nz Hx Hy Hz); [exact G|]. unfold p, round3. destruct LE as (L1 & L2 & L3).
      pose proof (nearest_even_bound (a / m) (py_round (a / m)) 1 ltac:(change (inject_Z 1) with 1%Q; lra) (py_round_spec (a / m))).
      pose proof (nearest_even_bound (b / m) (py_round (b / m)) 1 ltac:(change (inject_Z 1) with 1%Q; lra) (py_round_spec (b / m))).
      pose proof (nearest_even_bound (c / m) (py_round (c / m)) 1 ltac:(change (inject_Z 1) with 1%Q; lra) (py_round_spec (c / m))). lia. }
    destruct PT as [PT Gt]. change @rd with @value_at.
    split; [|split; [exact LE|split]].
    + exists (a, b, c), m. split; [exact RG|]. split; [exact MN|]. right. split; [exact GE|]. cbv beta iota.
      repeat split; field; lra.
    + exists p, t. split; [unfold p, round3, nearest3; repeat split; apply py_round_spec|]. split; [exact PT|].
      destruct (Qle_bool (value_at data t) (value_at data v)) eqn:E; cbn [snd].
      * right. apply Qle_bool_iff in E. auto.
      * left. split; [|reflexivity]. apply Qnot_le_lt. intros K. apply Qle_bool_iff in K. congruence.
    + destruct (Qle_bool (value_at data t) (value_at data v)) eqn:E; cbn [snd]; [auto|].
      assert (L : (value_at data v < value_at data t)%Q) by (apply Qnot_le_lt; intros K; apply Qle_bool_iff in K; congruence).
      split; [exact Gt|]. split; [exact L|]. destruct (value_at vac t) eqn:Vt; [|reflexivity]. specialize (Hvac v t G Gt Vt V). lra.
Qed.

Lemma grad_at v : value_at vac v = false -> value_at mx v = false -> grad v = fst (nvox v).
Proof. intros V M. unfold near_gradients. change @rd with @value_at. now rewrite V, M. Qed.
Lemma grad_bound v : grid v -> le3 (grad v) 1.
Proof.
  intros G. destruct (value_at vac v) eqn:V; [|destruct (value_at mx v) eqn:M].
  - unfold near_gradients. change @rd with @value_at. rewrite V. cbn. repeat split; lra.
  - unfold near_gradients. change @rd with @value_at. rewrite V, M. cbn. repeat split; lra.
  - rewrite grad_at by assumption. now apply near_voxel_spec.
Qed.
Lemma points_nvox v : grid v -> value_at vac v = false -> value_at mx v = false -> points v (snd (nvox v)).
Proof. intros G V M. unfold points_to. rewrite grad_at by assumption. now apply near_voxel_spec. Qed.

Lemma points_fun v a b : grid v -> points v a -> points v b -> a = b.
Proof.
  intros G (p & t & P1 & P2 & P3) (p' & t' & Q1 & Q2 & Q3). destruct (grad v) as [[x y] z]. destruct p as [[pa pb] pc], p' as [[qa qb] qc].
  cbn [nearest3] in P1, Q1. destruct P1 as (A1 & A2 & A3), Q1 as (B1 & B2 & B3).
  assert (pa = qa) by exact (nearest_even_fun _ _ _ _ (Qeq_refl _) A1 B1).
  assert (pb = qb) by exact (nearest_even_fun _ _ _ _ (Qeq_refl _) A2 B2).
  assert (pc = qc) by exact (nearest_even_fun _ _ _ _ (Qeq_refl _) A3 B3). subst.
  pose proof (ptarget_fun nx ny nz _ _ _ _ P2 Q2) as ->.
  destruct P3 as [[K1 ->]|[K1 K2]], Q3 as [[K3 ->]|[K3 K4]]; [reflexivity|lra|lra|].
  rewrite (steepest_fun nx ny nz Hx0 Hy0 Hz0 data nbs Hnbs v a G K2). symmetry. exact (steepest_fun nx ny nz Hx0 Hy0 Hz0 data nbs Hnbs v b G K4).
Qed.

Lemma drifts_exists v : grid v -> value_at vac v = false -> exists m, drifts v m /\ grid m /\ value_at mx m = true.
Proof.
  remember (above nx ny nz data v) as k eqn:Ek. revert v Ek. induction k as [k IH] using lt_wf_ind. intros v Ek G V.
  destruct (value_at mx v) eqn:M.
  - exists v. split; [now apply dr_top|auto].
  - destruct (near_voxel_spec v G V M) as (_ & _ & _ & G' & L & V').
    pose proof (above_lt nx ny nz data v _ G' L).
    destruct (IH (above nx ny nz data (snd (nvox v))) ltac:(lia) _ eq_refl G' V') as (m & D & Gm & Mm).
    exists m. split; [|auto]. eapply dr_step; [cbv beta; congruence|now apply points_nvox|exact D].
Qed.
Lemma drifts_max v m : value_at mx v = true -> drifts v m -> m = v.
Proof. intros M D. inversion D; subst; [reflexivity|contradiction]. Qed.
Lemma drifts_fun v m : drifts v m -> grid v -> value_at vac v = false -> forall m', drifts v m' -> m = m'.
Proof.
  induction 1 as [v T|v w m T P D IH]; intros G V m' D'.
  - symmetry. now apply drifts_max.
  - inversion D' as [|? w' ? T' P' D'']; subst; [contradiction|].
    assert (M : value_at mx v = false) by now destruct (value_at mx v).
    pose proof (points_fun v w w' G P P') as ->. pose proof (points_fun v w' _ G P' (points_nvox v G V M)) as ->.
    destruct (near_voxel_spec v G V M) as (_ & _ & _ & G' & _ & V'). now apply IH.
Qed.

(** ** the pointer array *)
Variable L0 : list Z.
Hypothesis HL0 : length L0 = N.
Hypothesis Hvac0 : forall v, grid v -> value_at vac v = true -> nth_error L0 (num v) = Some (-1).
Hypothesis Hmax0 : forall m, grid m -> value_at mx m = true ->
  exists b, grid b /\ value_at mx b = true /\
    nth_error L0 (num m) = Some (Z.of_nat (num b)) /\ nth_error L0 (num b) = Some (Z.of_nat (num b)).
Variable order : list nat.
Hypothesis Hord : covers nx ny nz order.
Notation P := (get_gradient_pointers_simple nx ny nz data nbs dir2lat vac mx order L0).

Lemma mx_nonvac v : grid v -> value_at mx v = true -> value_at vac v = false.
Proof. intros G M. apply (Hmx v G) in M. now destruct M as (_ & V & _). Qed.
Lemma nP_length : length P = N.
Proof. unfold get_gradient_pointers_simple. now rewrite par_loop_length. Qed.
Lemma nP_nth v : grid v -> nth_error P (num v) =
  if value_at vac v then Some (-1)
  else if value_at mx v then nth_error L0 (num v)
  else Some (Z.of_nat (num (snd (nvox v)))).
Proof.
  intros Hv. pose proof (voxel_number_lt nx ny nz Hx0 Hy0 Hz0 v Hv) as L.
  rewrite (nth_error_nth_lt P (num v) 0) by (rewrite nP_length; exact L).
  unfold get_gradient_pointers_simple. rewrite par_loop_nth by (rewrite HL0; exact L).
  replace (existsb (Nat.eqb (num v)) order) with true.
  2:{ symmetry. apply existsb_exists. exists (num v). split; [now apply Hord|apply Nat.eqb_refl]. }
  unfold near_cell. rewrite (unflat_voxel_number nx ny nz v Hv).
  change @rd with @value_at. destruct (value_at vac v) eqn:EV.
  - rewrite <- (Hvac0 v Hv EV). symmetry. apply nth_error_nth_lt. rewrite HL0. exact L.
  - destruct (value_at mx v) eqn:EM.
    + symmetry. apply nth_error_nth_lt. rewrite HL0. exact L.
    + f_equal. rewrite <- flat_voxel_number. destruct (near_voxel_spec v Hv EV EM) as (_ & _ & _ & Hb & _).
      destruct (snd (nvox v)) as [[i j] k].
      pose proof (coords_flat_range i j k nx ny nz Hb). unfold flat. lia.
Qed.

Lemma drifts_reaches v m : drifts v m -> grid v -> value_at vac v = false ->
  grid m /\ value_at mx m = true /\ exists b, nth_error L0 (num m) = Some (Z.of_nat b) /\ reaches P (num v) b.
Proof.
  induction 1 as [v T|v w m T Pv D IH]; intros Hv V.
  - split; [exact Hv|]. split; [exact T|].
    destruct (Hmax0 v Hv T) as (b & Gb & Mb & E1 & E2). exists (num b). split; [exact E1|].
    assert (Rb : reaches P (num b) (num b)).
    { apply reaches_end. rewrite (nP_nth b Gb), (mx_nonvac b Gb Mb), Mb. exact E2. }
    apply (reaches_step P (num v) (num b)); [|exact Rb]. rewrite (nP_nth v Hv), V, T. exact E1.
  - assert (M : value_at mx v = false) by now destruct (value_at mx v).
    pose proof (points_fun v w _ Hv Pv (points_nvox v Hv V M)) as ->.
    destruct (near_voxel_spec v Hv V M) as (_ & _ & _ & G' & _ & V').
    destruct (IH G' V') as (Gm & Mm & b & E & R). split; [exact Gm|]. split; [exact Mm|]. exists b. split; [exact E|].
    apply (reaches_step P (num v) (num (snd (nvox v)))); [|exact R]. now rewrite (nP_nth v Hv), V, M.
Qed.

Lemma nP_surj i x : nth_error P i = Some x -> exists v, grid v /\ num v = i.
Proof.
  intros H. assert (L : (i < N)%nat) by (rewrite <- nP_length; apply nth_error_Some; congruence).
  destruct (unflat_in_grid nx ny nz Hx0 Hy0 Hz0 i L) as [G E]. eauto.
Qed.
Lemma nP_good : good_pointers P.
Proof.
  split.
  - intros i x H Hne. destruct (nP_surj i x H) as (v & Hv & <-). rewrite (nP_nth v Hv) in H.
    destruct (value_at vac v) eqn:V; [congruence|].
    assert (K : forall u, grid u -> value_at vac u = false -> nth_error P (num u) <> Some (-1)).
    { intros u Hu Vu. rewrite (nP_nth u Hu), Vu. destruct (value_at mx u) eqn:M.
      - destruct (Hmax0 u Hu M) as (b & _ & _ & E & _). rewrite E. intros [= E']. lia.
      - intros [= E']. lia. }
    destruct (value_at mx v) eqn:M.
    + destruct (Hmax0 v Hv M) as (b & Gb & Mb & E & E2). rewrite E in H. injection H as <-.
      pose proof (voxel_number_lt nx ny nz Hx0 Hy0 Hz0 b Gb). rewrite nP_length. split; [lia|].
      rewrite Nat2Z.id. apply K; [exact Gb|]. now apply mx_nonvac.
    + injection H as <-. destruct (near_voxel_spec v Hv V M) as (_ & _ & _ & Gb & _ & Vb).
      pose proof (voxel_number_lt nx ny nz Hx0 Hy0 Hz0 _ Gb). rewrite nP_length. split; [lia|].
      rewrite Nat2Z.id. now apply K.
  - intros i x H Hne. destruct (nP_surj i x H) as (v & Hv & <-).
    assert (V : value_at vac v = false).
    { rewrite (nP_nth v Hv) in H. destruct (value_at vac v); congruence. }
    destruct (drifts_exists v Hv V) as (m & A & _).
    destruct (drifts_reaches v m A Hv V) as (_ & _ & b & _ & R). eauto.
Qed.

Variable num_vacuum : Z.
Hypothesis Hnv : num_vacuum = 0 -> forall v, grid v -> value_at vac v = false.

Lemma near_roots fuel : (Nat.log2_up N < fuel)%nat ->
  exists root, get_roots num_vacuum fuel P = Done root /\ dense_labelling root (compact root) (n_labels root) /\ length root = N /\
    forall v, grid v ->
      (value_at vac v = true -> nth_error root (num v) = Some (-1)) /\
      (value_at vac v = false -> exists m, drifts v m /\ grid m /\ value_at mx m = true /\
         nth_error root (num v) = nth_error L0 (num m)).
Proof.
  intros Hf. destruct (get_roots_correct P num_vacuum fuel nP_good) as (q & E & Lq & Hq).
  { intros E Hin. apply In_nth_error in Hin as (i & Hi). destruct (nP_surj i _ Hi) as (v & Hv & <-).
    rewrite (nP_nth v Hv), (Hnv E v Hv) in Hi. destruct (value_at mx v) eqn:M.
    - destruct (Hmax0 v Hv M) as (b & _ & _ & E1 & _). rewrite E1 in Hi. injection Hi as Hi. lia.
    - injection Hi as Hi. lia. }
  { rewrite nP_length. exact Hf. }
  exists q. rewrite E. split; [reflexivity|]. split; [|split].
  - apply compact_dense. intros x Hin. apply In_nth_error in Hin as (i & Hi).
    assert (exists y, nth_error P i = Some y) as (y & Hyp).
    { destruct (nth_error P i) eqn:E0; eauto. apply nth_error_None in E0.
      assert (i < length q)%nat by (apply nth_error_Some; congruence). lia. }
    destruct (Hq i y Hyp) as [H1 H2]. destruct (Z.eq_dec y (-1)) as [->|Hne].
    + rewrite (H1 eq_refl) in Hi. injection Hi as <-. lia.
    + destruct (H2 Hne) as (r & Er & _). rewrite Er in Hi. injection Hi as <-. lia.
  - rewrite Lq. apply nP_length.
  - intros v Hv. split.
    + intros V. apply (Hq (num v) (-1)); [|reflexivity]. now rewrite (nP_nth v Hv), V.
    + intros V. destruct (drifts_exists v Hv V) as (m & A & _).
      destruct (drifts_reaches v m A Hv V) as (Gm & Mm & b & Eb & R).
      exists m. repeat split; auto.
      assert (exists y, nth_error P (num v) = Some y /\ y <> -1) as (y & Hyp & Hne).
      { rewrite (nP_nth v Hv), V. destruct (value_at mx v) eqn:M.
        - destruct (Hmax0 v Hv M) as (b' & _ & _ & E1 & _). rewrite E1. eexists; split; [reflexivity|lia].
        - eexists; split; [reflexivity|lia]. }
      destruct (Hq (num v) y Hyp) as [_ H2]. destruct (H2 Hne) as (r & Er & Rr).
      rewrite Er, Eb. do 2 f_equal. eapply reaches_fun; eauto.
Qed.
End NearRun.

Lemma voxels_length nx ny nz : 0 < nx -> 0 < ny -> 0 < nz -> length (voxels nx ny nz) = Z.to_nat (nx * ny * nz).
Proof.
  intros Hx Hy Hz. unfold voxels.
  assert (FM : forall (A : Type) (g : Z -> list A) c l, (forall i, length (g i) = c) -> length (flat_map g l) = (length l * c)%nat).
  { intros A g c l H. induction l as [|a l IH]; cbn [flat_map length]; [reflexivity|]. rewrite app_length, H, IH. lia. }
  rewrite (FM _ _ (Z.to_nat ny * Z.to_nat nz)%nat).
  - rewrite zrange_length. rewrite !Z2Nat.inj_mul by nia. lia.
  - intros i. rewrite (FM _ _ (Z.to_nat nz)).
    + now rewrite zrange_length.
    + intros j. now rewrite map_length, zrange_length.
Qed.

(** ** the whole run *)
Section Whole.
Variables nx ny nz : Z.
Hypothesis Hx : 2 <= nx.
Hypothesis Hy : 2 <= ny.
Hypothesis Hz : 2 <= nz.
Let Hx0 : 0 < nx. Proof. lia. Qed.
Let Hy0 : 0 < ny. Proof. lia. Qed.
Let Hz0 : 0 < nz. Proof. lia. Qed.
Notation N := (Z.to_nat (nx * ny * nz)).
Notation grid := (in_grid nx ny nz).
Notation num := (voxel_number ny nz).
Variable data : arr3 Q.
Variable nbs : list (offset * Q).
Hypothesis Hnbs : forall s d, In (s, d) nbs -> unit_offset s /\ (0 < d)%Q.
Variable dir2lat : q3 * q3 * q3.
Variable vac : arr3 bool.
Hypothesis Hvac : forall v w, grid v -> grid w -> value_at vac w = true -> value_at vac v = false ->
  (value_at data w < value_at data v)%Q.
Hypothesis Hfloor : forall v, grid v -> (low_start < value_at data v)%Q.
Notation ismax := (is_maximum nx ny nz data (map fst nbs) vac).
Variables order1 order2 order3 : list nat.
Hypothesis Hord1 : covers nx ny nz order1.
Hypothesis Hord2 : covers nx ny nz order2.
Hypothesis Hord3 : covers nx ny nz order3.
Notation mask0 := (get_maxima nx ny nz data (map fst nbs) vac false order1).
Notation maxima := (argwhere nx ny nz mask0).
Variable same : list (Z * Z * Z) -> nat -> nat -> outcome bool.
Variable sorted : list (Z * Z * Z) -> list nat.
Hypothesis Hsame : forall l a b, (a < length l)%nat -> (b < length l)%nat -> exists r, same l a b = Done r.
Hypothesis Hsorted : forall l, Permutation (sorted l) (seq 0 (length l)) /\
  StronglySorted (fun a b => (value_at data (nth b l (0, 0, 0)%Z) <= value_at data (nth a l (0, 0, 0)%Z))%Q) (sorted l).
Variable num_vacuum : Z.
Hypothesis Hnv : num_vacuum = 0 -> forall v, grid v -> value_at vac v = false.

Notation mx := (reshape false mask0 ny nz).
Notation grad := (near_gradients nx ny nz data nbs dir2lat vac mx).
Notation vacP := (fun v => value_at vac v = true).
Notation topP := (fun v => value_at mx v = true).
Notation drifts := (drifts nx ny nz data nbs grad topP).
Notation climbs := (climbs_to nx ny nz data nbs grad vacP topP).
Notation refined := (refined nx ny nz data nbs grad vacP topP).

Lemma mx_spec v : grid v -> (value_at mx v = true <-> ismax v).
Proof. intros G. rewrite (reshape_num nx ny nz) by exact G. now apply (mask0_spec nx ny nz). Qed.

Lemma refined_ext (st st' : Z * Z * Z -> Prop) (la la' : Z * Z * Z -> Z) : (forall v, st v -> st' v) ->
  (forall v w, la v <> la w -> la' v <> la' w) -> forall v, refined st la v -> refined st' la' v.
Proof.
  intros S A v R. induction R as [v K|v m s w R IH C NE Hs PT NV].
  - apply rf_start. auto.
  - eapply rf_spread; eauto.
Qed.

(** The edge voxels of a labelling that are not maxima. *)
Definition boundary (first : Z * Z * Z -> Z) (v : Z * Z * Z) : Prop :=
  grid v /\ value_at vac v = false /\ ~ ismax v /\
  exists s w, In s (map fst nbs) /\ periodic_target nx ny nz v s w /\ value_at vac w = false /\ first w <> first v.

Theorem near_run_correct fuel scheds : (2 * N + 2 <= fuel)%nat ->
  exists bs L0 E first res,
    near_run nx ny nz data nbs dir2lat vac num_vacuum same sorted order1 order2 order3 fuel scheds = Done (res, bs) /\
    merged nx ny nz data (map fst nbs) vac maxima (same maxima) (sorted maxima) L0 (map fst bs) E /\
    (forall v, grid v -> value_at vac v = true -> first v = -1) /\
    (forall v, grid v -> value_at vac v = false -> exists m b, drifts v m /\ ismax m /\ In b (map fst bs) /\
       connected E (num m) (num b) /\ first v = Z.of_nat (rank ny nz (map fst bs) b)) /\
    (forall lab, res = Some lab ->
      forall v, grid v -> (value_at vac v = true -> lab v = -1) /\
       (value_at vac v = false ->
          (refined (boundary first) first v /\ exists m, climbs v m /\ ismax m /\ lab v = first m) \/
          (~ refined (boundary first) first v /\ lab v = first v))) /\
    ((N <= length scheds)%nat ->
     (forall s t, In s scheds -> (t < N)%nat -> (step_bound nx ny nz nbs <= count_occ Nat.eq_dec s t)%nat) ->
     res <> None).
Proof.
  intros Hf. unfold near_run. set (mxs := maxima).
  destruct (argwhere_spec nx ny nz Hx0 Hy0 Hz0 mask0) as (ND & _ & IN). fold mxs in ND, IN.
  destruct (Hsorted mxs) as [PS SS].
  destruct (initialize_correct nx ny nz Hx0 Hy0 Hz0 data nbs Hnbs vac Hvac mask0 ltac:(apply mask_loop_length)
     (mask0_spec nx ny nz Hx0 Hy0 Hz0 data nbs Hnbs vac order1 Hord1) mxs ND IN
     (same mxs) (fun a b Ha Hb => Hsame mxs a b Ha Hb) (sorted mxs) PS SS Hfloor fuel Hf) as (L0 & bs & mask & E & E1 & -> & PO & M).
  rewrite E1. cbn [obind]. pose proof M as [ML MO MR MC _ _ _ _ MND MB].
  set (reps := map fst bs) in *.
  destruct (near_roots nx ny nz Hx Hy Hz data nbs Hnbs dir2lat vac Hvac mx mx_spec L0) with (order := order2) (num_vacuum := num_vacuum) (fuel := fuel)
    as (root & E2 & DL & LR & RT).
  { exact ML. }
  { intros v G V. apply MO; [exact G|]. intros (_ & K & _). congruence. }
  { intros m G Mm. apply (mx_spec m G) in Mm. destruct (MR m Mm) as (b & [Tb _] & K1 & K2 & _).
    exists b. split; [apply Tb|]. split; [apply mx_spec; [apply Tb|exact Tb]|]. auto. }
  { exact Hord2. }
  { exact Hnv. }
  { pose proof (Nat.log2_up_le_lin N). lia. }
  unfold near_refine. rewrite E2. cbn [obind]. set (lab0 := compact root) in *.
  destruct DL as (DL1 & DL2 & DL3 & DL4).
  assert (LAB : forall v c, grid v -> nth_error root (num v) = Some c -> exists l, nth_error lab0 (num v) = Some l).
  { intros v c G Hc. destruct (nth_error lab0 (num v)) eqn:K; [eauto|]. apply nth_error_None in K.
    assert (num v < length root)%nat by (apply nth_error_Some; congruence). lia. }
  assert (RB : forall b, In b reps -> ismax b /\ nth_error root (num b) = Some (Z.of_nat (num b))).
  { intros b Hb. destruct (MB b Hb) as [[Tb _] Lb]. pose proof Tb as (Gb & Vb & Hb').
    split; [exact Tb|]. destruct (RT b Gb) as [_ K]. destruct (K Vb) as (m & A & Gm & Mm & Em).
    apply drifts_max in A; [|now apply mx_spec]. subst m. congruence. }
  assert (VR : forall v, grid v -> value_at vac v = false -> exists m b, drifts v m /\ ismax m /\
     In b reps /\ connected E (num m) (num b) /\ nth_error root (num v) = Some (Z.of_nat (num b))).
  { intros v G V. destruct (RT v G) as [_ K]. destruct (K V) as (m & A & Gm & Mm & Em). apply (mx_spec m Gm) in Mm.
    destruct (MR m Mm) as (b & [Tb _] & K1 & K2 & K3 & _). exists m, b. split; [exact A|]. split; [exact Mm|]. split; [exact K3|].
    split; [apply MC; [exact Mm|exact Tb|congruence]|congruence]. }
  assert (RK : forall b, In b reps -> nth_error lab0 (num b) = Some (Z.of_nat (rank ny nz reps b))).
  { intros b Hb. destruct (RB b Hb) as [Mb Rb]. destruct (LAB b _ (proj1 Mb) Rb) as (l & Hl). rewrite Hl. f_equal.
    destruct (DL2 _ _ _ Rb Hl) as [D1 D2]. specialize (D2 ltac:(lia)).
    set (lb := fun b' => nth (num b') lab0 0).
    assert (LB : forall b', In b' reps -> nth_error lab0 (num b') = Some (lb b')).
    { intros b' Hb'. destruct (RB b' Hb') as [Mb' Rb']. destruct (LAB b' _ (proj1 Mb') Rb') as (l' & Hl').
      unfold lb. rewrite (nth_error_nth _ _ _ Hl'). exact Hl'. }
    assert (CNT : Permutation (map lb (filter (fun b' => Nat.ltb (num b') (num b)) reps)) (zrange l)).
    { apply NoDup_Permutation; [|apply zrange_NoDup|].
      - apply NoDup_map_inj_in; [now apply NoDup_filter|]. intros u w Hu Hw EQ. apply filter_In in Hu as [Hu _], Hw as [Hw _].
        destruct (RB u Hu) as [Mu Ru], (RB w Hw) as [Mw Rw].
        destruct (DL4 _ _ _ _ _ _ Ru Rw (LB u Hu) (LB w Hw)) as [Q1 _]. apply Q1 in EQ.
        apply (num_inj nx ny nz); [apply Mu|apply Mw|lia].
      - intros k. rewrite in_zrange, in_map_iff. split.
        + intros (u & <- & Hu). apply filter_In in Hu as [Hu Lt]. destruct (RB u Hu) as [Mu Ru].
          destruct (DL2 _ _ _ Ru (LB u Hu)) as [_ Z2]. specialize (Z2 ltac:(lia)).
          destruct (DL4 _ _ _ _ _ _ Ru Rb (LB u Hu) Hl) as [_ Q2]. split; [lia|]. apply Q2. lia.
        + intros Hk. destruct (DL3 (Z.to_nat k) ltac:(lia)) as (i & Hi). rewrite Z2Nat.id in Hi by lia.
          assert (Li : (i < N)%nat) by (rewrite <- LR, <- DL1; apply nth_error_Some; congruence).
          destruct (unflat_in_grid nx ny nz Hx0 Hy0 Hz0 i Li) as [Gv Ev]. set (v := unflat ny nz (Z.of_nat i)) in *.
          rewrite <- Ev in Hi. destruct (nth_error root (num v)) as [c|] eqn:Rv.
          2:{ apply nth_error_None in Rv. lia. }
          destruct (DL2 _ _ _ Rv Hi) as [Z1 _].
          assert (Vv : value_at vac v = false).
          { destruct (value_at vac v) eqn:K; [|reflexivity]. destruct (RT v Gv) as [K2 _]. specialize (K2 K).
            assert (c = -1) by congruence. apply Z1 in H. lia. }
          destruct (VR v Gv Vv) as (m & u & _ & _ & Hu & _ & Ru). assert (c = Z.of_nat (num u)) by congruence. subst c.
          destruct (RB u Hu) as [Mu Ru'].
          destruct (DL4 _ _ _ _ _ _ Rv Ru' Hi (LB u Hu)) as [Q1 _].
          exists u. assert (EK : lb u = k) by (symmetry; now apply Q1). split; [exact EK|].
          apply filter_In. split; [exact Hu|]. apply Nat.ltb_lt.
          destruct (DL4 _ _ _ _ _ _ Ru' Rb (LB u Hu) Hl) as [_ Q2]. rewrite EK in Q2. assert (k < l) by lia. apply Q2 in H. lia. }
    apply Permutation_length in CNT. rewrite map_length, zrange_length in CNT. unfold rank. lia. }
  set (first := fun v => nth (num v) lab0 0).
  assert (F1 : forall v, grid v -> value_at vac v = true -> first v = -1).
  { intros v G V. destruct (RT v G) as [K _]. specialize (K V). destruct (LAB v _ G K) as (l & Hl).
    destruct (DL2 _ _ _ K Hl) as [Z1 _]. unfold first. rewrite (nth_error_nth _ _ _ Hl). now apply Z1. }
  assert (F2 : forall v, grid v -> value_at vac v = false -> exists m b, drifts v m /\ ismax m /\ In b reps /\
       connected E (num m) (num b) /\ first v = Z.of_nat (rank ny nz reps b)).
  { intros v G V. destruct (VR v G V) as (m & b & A & Mm & Hb & C & Rv). exists m, b.
    split; [exact A|]. split; [exact Mm|]. split; [exact Hb|]. split; [exact C|].
    destruct (LAB v _ G Rv) as (l & Hl). destruct (RB b Hb) as [Mb Rb].
    destruct (DL4 _ _ _ _ _ _ Rv Rb Hl (RK b Hb)) as [Q1 _]. unfold first. rewrite (nth_error_nth _ _ _ Hl). now apply Q1. }
  set (label := fun v => nth (Z.to_nat (flat ny nz v)) lab0 0 + 1).
  assert (FL : forall v, label v = first v + 1).
  { intros v. unfold label, first. now rewrite flat_voxel_number. }
  set (start := fun v => nth (Z.to_nat (flat ny nz v)) (get_edges nx ny nz (fun i j k => label (i, j, k)) (map fst nbs) vac order3) false && negb (rd mx v)).
  assert (US : forall s, In s (map fst nbs) -> unit_offset s).
  { intros s Hs. apply in_map_iff in Hs as ([s' d] & <- & H). now apply (Hnbs s' d). }
  assert (ST : forall v, (grid v /\ start v = true) <-> boundary first v).
  { intros v. unfold boundary. split.
    - intros [G S]. split; [exact G|]. unfold start in S. apply andb_true_iff in S as [S1 S2]. apply negb_true_iff in S2.
      rewrite flat_voxel_number in S1. apply (edges_spec nx ny nz Hx0 Hy0 Hz0) in S1; [|exact Hord3|exact G|exact US].
      destruct S1 as (V & s & w & Hs & PT & Vw & D). split; [exact V|]. split.
      { intros T. apply mx_spec in T; [|exact G]. change @rd with @value_at in S2. congruence. }
      exists s, w. repeat split; auto. destruct v as [[? ?] ?], w as [[? ?] ?]. cbn [value_at] in D. rewrite !FL in D. lia.
    - intros (G & V & T & s & w & Hs & PT & Vw & D). split; [exact G|]. unfold start. apply andb_true_iff. split.
      + rewrite flat_voxel_number. apply (edges_spec nx ny nz Hx0 Hy0 Hz0); [exact Hord3|exact G|exact US|]. split; [exact V|].
        exists s, w. repeat split; auto. destruct v as [[? ?] ?], w as [[? ?] ?]. cbn [value_at]. rewrite !FL. lia.
      + apply negb_true_iff. change @rd with @value_at. destruct (value_at mx v) eqn:K; [|reflexivity]. exfalso. apply T. now apply mx_spec. }
  assert (HL : forall u, grid u -> (value_at vac u = true -> label u = 0) /\ (value_at vac u = false -> 0 < label u)).
  { intros u G. rewrite FL. split; intros V.
    - rewrite (F1 u G V). reflexivity.
    - destruct (F2 u G V) as (_ & b & _ & _ & _ & _ & ->). lia. }
  assert (HS : forall u, grid u -> start u = true -> value_at vac u = false).
  { intros u G S. assert (K : boundary first u) by (apply ST; auto). now destruct K as (_ & K & _). }
  pose proof (grad_bound nx ny nz Hx Hy Hz data nbs Hnbs dir2lat vac Hvac mx mx_spec) as GB.
  pose proof (refine_correct nx ny nz Hx Hy Hz data nbs Hnbs vac Hvac mx mx_spec grad GB label start HL HS scheds) as RC.
  pose proof (refine_completes nx ny nz Hx Hy Hz data nbs Hnbs vac Hvac mx mx_spec grad GB label start HL HS scheds) as RF.
  unfold first_memory in RC, RF.
  exists bs, L0, E, first, (match refine_loop nx ny nz data nbs grad mx scheds {| m_lab := fun v => if start v then - label v else label v; m_mask := start |} with
     | Some m => Some (fun v => Z.abs (m_lab m v) - 1) | None => None end).
  split; [reflexivity|]. split; [exact M|]. split; [exact F1|]. split; [exact F2|]. split.
  - intros lab Elab. destruct (refine_loop _ _ _ _ _ _ _ _ _) as [m|] eqn:EL; [|discriminate]. injection Elab as <-.
    specialize (RC m eq_refl). intros v G. destruct (RC v G) as [R1 R2]. split.
    + intros V. rewrite (R1 V). reflexivity.
    + intros V.
      assert (RE : refined (fun u => grid u /\ start u = true) label v <-> refined (boundary first) first v).
      { split; apply refined_ext; try (intros u; apply ST); intros a b; rewrite !FL; lia. }
      destruct (R2 V) as [[K1 K2]|[K1 K2]].
      * left. split; [now apply RE|].
        destruct (goal_spec nx ny nz Hx Hy Hz data nbs Hnbs vac Hvac mx mx_spec grad GB v G V) as [C T].
        exists (goal nx ny nz data nbs vac mx grad v). split; [exact C|]. split; [exact T|]. rewrite K2, FL.
        destruct T as (G' & V' & _). pose proof (proj2 (HL _ G') V') as P. rewrite FL in P. lia.
      * right. split; [now rewrite <- RE|]. rewrite K2, FL. pose proof (proj2 (HL v G) V) as P. rewrite FL in P. lia.
  - intros C1 C2. rewrite (voxels_length nx ny nz Hx0 Hy0 Hz0) in RF. destruct (RF C1 C2) as (m & ->). discriminate.
Qed.
End Whole.
