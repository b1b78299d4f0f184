(** Properties of the gradient from all neighbours. *)
From Coq Require Import QArith Lqa Lia.
From Verif Require Import Base GridModel GridProofs NeighModel NeighSpec NeighProofs RootsModel RootsSpec
  RootsProofs OngridProofs CoreLemmas UnionModel UnionSpec UnionProofs LabelsModel LabelsSpec LabelsProofs RunModel RunProofs
  NearModel NearSpec NearProofs NearRun NearProps OverModel.
From Coq Require Import ZifyBool ZifyNat.
Local Open Scope Z_scope.

(** ** Least squares *)
Definition qeq3 (a b : q3) : Prop := let '(x, y, z) := a in let '(u, v, w) := b in (x == u /\ y == v /\ z == w)%Q.
(** [N^T N t], for the rows [ns] of [N]. *)
Definition normal (ns : list q3) (t : q3) : q3 := fold_right (fun n acc => q3_add (qscale (dot3 n t) n) acc) (0, 0, 0)%Q ns.
(** The columns [ps] of the pseudo-inverse [P] of a matrix of full rank: [N^T N P = N^T] and [P N = 1]. *)
Definition pseudo_inverse (ns ps : list q3) : Prop :=
  Forall2 (fun n p => qeq3 (normal ns p) n) ns ps /\ forall t, qeq3 (mat_vec ps (map (fun n => dot3 n t) ns)) t.
Definition residual (ns : list q3) (ds : list Q) (t : q3) : Q :=
  fold_right (fun '(n, d) acc => (dot3 n t - d) * (dot3 n t - d) + acc)%Q 0%Q (combine ns ds).
Lemma qeq3_refl a : qeq3 a a.
Proof. destruct a as [[x y] z]. cbn. repeat split; reflexivity. Qed.
Lemma normal_add ns a b : qeq3 (normal ns (q3_add a b)) (q3_add (normal ns a) (normal ns b)).
Proof.
  induction ns as [|n ns IH]; [cbn; repeat split; reflexivity|]. cbn [normal fold_right]. fold (normal ns (q3_add a b)) (normal ns a) (normal ns b).
  destruct (normal ns (q3_add a b)) as [[x y] z], (normal ns a) as [[x1 y1] z1], (normal ns b) as [[x2 y2] z2], n as [[n1 n2] n3], a as [[a1 a2] a3], b as [[b1 b2] b3]. cbn [q3_add qeq3 qscale dot3] in *. destruct IH as (-> & -> & ->). repeat split; ring.
Qed.
Lemma normal_scale ns t a : qeq3 (normal ns (qscale t a)) (qscale t (normal ns a)).
Proof.
  induction ns as [|n ns IH]; [cbn; repeat split; ring|]. cbn [normal fold_right]. fold (normal ns (qscale t a)) (normal ns a).
  destruct (normal ns (qscale t a)) as [[x y] z], (normal ns a) as [[x1 y1] z1], n as [[n1 n2] n3], a as [[a1 a2] a3]. cbn [q3_add qeq3 qscale dot3] in *. destruct IH as (-> & -> & ->). repeat split; ring.
Qed.
Lemma normal_zero ns : qeq3 (normal ns (0, 0, 0)%Q) (0, 0, 0)%Q.
Proof.
  induction ns as [|n ns IH]; [cbn; repeat split; reflexivity|]. cbn [normal fold_right]. fold (normal ns (0, 0, 0)%Q). destruct (normal ns (0, 0, 0)%Q) as [[x y] z], n as [[n1 n2] n3]. cbn [q3_add qeq3 qscale dot3] in *. destruct IH as (-> & -> & ->). repeat split; ring.
Qed.
(** The normal equations [N^T N (P d) = N^T d]. *)
Lemma normal_equations ns ns' ps ds : Forall2 (fun n p => qeq3 (normal ns p) n) ns' ps -> length ds = length ps -> qeq3 (normal ns (mat_vec ps ds)) (mat_vec ns' ds).
Proof.
  intros F. revert ds. induction F as [|n p ns' ps H _ IH]; intros ds L; [destruct ds; [|discriminate L]; apply normal_zero|]. destruct ds as [|d ds]; [discriminate L|]. injection L as L. specialize (IH ds L). unfold mat_vec. cbn [combine fold_right]. fold (mat_vec ps ds) (mat_vec ns' ds).
  pose proof (normal_add ns (qscale d p) (mat_vec ps ds)) as A. pose proof (normal_scale ns d p) as S.
  destruct (normal ns (q3_add (qscale d p) (mat_vec ps ds))) as [[x y] z], (normal ns (qscale d p)) as [[x1 y1] z1], (normal ns (mat_vec ps ds)) as [[x2 y2] z2], (mat_vec ns' ds) as [[m1 m2] m3], (normal ns p) as [[q1 q2] q3'], n as [[n1 n2] n3]. cbn [q3_add qeq3 qscale] in *. destruct A as (-> & -> & ->), S as (-> & -> & ->), IH as (-> & -> & ->), H as (-> & -> & ->). repeat split; reflexivity.
Qed.
Definition squares (ns : list q3) (u : q3) : Q := fold_right (fun n acc => dot3 n u * dot3 n u + acc)%Q 0%Q ns.
Lemma squares_nonneg ns u : (0 <= squares ns u)%Q.
Proof. induction ns as [|n ns IH]; [cbn; lra|]. cbn [squares fold_right]. fold (squares ns u). assert (0 <= dot3 n u * dot3 n u)%Q by nra. lra. Qed.
Lemma residual_split ns ds g u : length ds = length ns ->
  (residual ns ds (q3_add g u) == residual ns ds g + squares ns u + 2 * (dot3 (normal ns g) u - dot3 (mat_vec ns ds) u))%Q.
Proof.
  revert ds. induction ns as [|n ns IH]; intros [|d ds] L; try discriminate L; [destruct u as [[? ?] ?]; cbn; ring|]. injection L as L. specialize (IH ds L).
  unfold residual, squares, normal, mat_vec. cbn [combine fold_right]. fold (residual ns ds (q3_add g u)) (residual ns ds g) (squares ns u) (normal ns g) (mat_vec ns ds). rewrite IH.
  set (r := residual ns ds g). set (q := squares ns u). clearbody r q. destruct (normal ns g) as [[x y] z], (mat_vec ns ds) as [[m1 m2] m3], n as [[n1 n2] n3], g as [[g1 g2] g3], u as [[u1 u2] u3]. cbn [q3_add qscale dot3]. ring.
Qed.
(** C241: no vector fits the slopes along the neighbours better than the one that is computed. *)
Theorem C241_least ns ps ds t : pseudo_inverse ns ps -> length ds = length ns -> (residual ns ds (mat_vec ps ds) <= residual ns ds t)%Q.
Proof.
  intros [F _] L. assert (LP : length ps = length ns) by (clear - F; revert F; generalize (fun n p => qeq3 (normal ns p) n); intros R F; induction F; cbn; congruence).
  pose proof (normal_equations ns ns ps ds F ltac:(congruence)) as E. set (g := mat_vec ps ds) in *. set (u := (let '(a, b, c) := t in let '(x, y, z) := g in (a - x, b - y, c - z))%Q).
  assert (T : qeq3 t (q3_add g u)) by (subst u; destruct t as [[a b] c], g as [[x y] z]; cbn [q3_add qeq3]; repeat split; ring).
  assert (R : (residual ns ds t == residual ns ds (q3_add g u))%Q).
  { clear - T. unfold residual. induction (combine ns ds) as [|[n d] l IH]; [reflexivity|]. cbn [fold_right]. rewrite IH. destruct n as [[n1 n2] n3], t as [[a b] c], (q3_add g u) as [[x y] z]. cbn [dot3 qeq3] in *. destruct T as (-> & -> & ->). reflexivity. }
  rewrite R, residual_split by exact L. pose proof (squares_nonneg ns u). assert (Z : (dot3 (normal ns g) u == dot3 (mat_vec ns ds) u)%Q). { destruct (normal ns g) as [[x y] z], (mat_vec ns ds) as [[m1 m2] m3], u as [[u1 u2] u3]. cbn [dot3 qeq3] in *. destruct E as (-> & -> & ->). reflexivity. } lra.
Qed.
(** Slopes of one vector give back the vector. *)
Theorem C241_exact ns ps ds g : pseudo_inverse ns ps -> Forall2 (fun n d => (d == dot3 n g)%Q) ns ds -> qeq3 (mat_vec ps ds) g.
Proof.
  intros [_ I] F. specialize (I g). assert (E : forall l, qeq3 (mat_vec l ds) (mat_vec l (map (fun n => dot3 n g) ns))).
  { clear I. induction F as [|n d ns ds H _ IH]; intros l; [apply qeq3_refl|]. destruct l as [|p l]; [apply qeq3_refl|]. unfold mat_vec. cbn [map combine fold_right]. fold (mat_vec l ds) (mat_vec l (map (fun n => dot3 n g) ns)). specialize (IH l).
    destruct (mat_vec l ds) as [[x y] z], (mat_vec l (map (fun n => dot3 n g) ns)) as [[x' y'] z'], p as [[p1 p2] p3]. cbn [q3_add qscale qeq3] in *. destruct IH as (-> & -> & ->). rewrite H. repeat split; reflexivity. }
  specialize (E ps). destruct (mat_vec ps ds) as [[x y] z], (mat_vec ps _) as [[x' y'] z'], g as [[g1 g2] g3]. cbn [qeq3] in *. destruct E as (-> & -> & ->). exact I.
Qed.

(** ** The gradient of a voxel *)
Section Voxel.
Variables nx ny nz : Z.
Hypothesis Hx : 2 <= nx.
Hypothesis Hy : 2 <= ny.
Hypothesis Hz : 2 <= nz.
Let Hx0 : 0 < nx. Proof. lia. Qed.
Let Hy0 : 0 < ny. Proof. lia. Qed.
Let Hz0 : 0 < nz. Proof. lia. Qed.
Notation N := (Z.to_nat (nx * ny * nz)).
Notation grid := (in_grid nx ny nz).
Notation num := (voxel_number ny nz).
Variable data : arr3 Q.
Variable nbs : list (offset * Q).
Hypothesis Hnbs : forall s d, In (s, d) nbs -> unit_offset s /\ (0 < d)%Q.
Variable car2lat : q3 * q3 * q3.
Variable ps : list q3.

(** The slope along one neighbour: the central difference, or 0 where neither side is higher. *)
Definition slope_along (v : Z * Z * Z) (s : Z * Z * Z) (d g : Q) : Prop :=
  let '(a, b, c) := s in exists hi lo, periodic_target nx ny nz v s hi /\ periodic_target nx ny nz v (- a, - b, - c) lo /\
  let h := value_at data hi in let l := value_at data lo in let m := value_at data v in
  ((h <= m /\ l <= m /\ g == 0) \/ ((m < h \/ m < l) /\ g * (2 * d) == h - l))%Q.
Lemma over_diff_spec v s d : grid v -> In (s, d) nbs -> slope_along v s d (over_diff nx ny nz data v (s, d)).
Proof.
  intros G I. destruct (Hnbs s d I) as [U D]. destruct s as [[a b] c]. destruct U as (U1 & U2 & U3).
  destruct (step_two nx ny nz Hx Hy Hz v (a, b, c) G ltac:(cbv beta iota; lia)) as [P1 _]. destruct (step_two nx ny nz Hx Hy Hz v (- a, - b, - c) G ltac:(cbv beta iota; lia)) as [P2 _].
  exists (step_to nx ny nz v (a, b, c)), (step_to nx ny nz v (- a, - b, - c)). split; [exact P1|]. split; [exact P2|]. cbv zeta. unfold over_diff. cbn [opp3]. change @rd with @value_at.
  set (h := value_at data (step_to nx ny nz v (a, b, c))). set (l := value_at data (step_to nx ny nz v (- a, - b, - c))). set (m := value_at data v).
  destruct (Qle_bool l m) eqn:E1; cbn [andb].
  - destruct (Qle_bool h m) eqn:E2.
    + apply Qle_bool_iff in E1, E2. left. repeat split; auto; reflexivity.
    + right. split; [left; apply Qnot_le_lt; intros K; apply Qle_bool_iff in K; congruence|field; lra].
  - right. split; [right; apply Qnot_le_lt; intros K; apply Qle_bool_iff in K; congruence|field; lra].
Qed.
(** C241: where the data around a voxel grow linearly, the gradient found is the one they grow by, in voxels. *)
Theorem C241_linear ns v g : grid v -> pseudo_inverse ns ps ->
  Forall2 (fun n sd => let '((a, b, c), d) := sd in forall hi lo, periodic_target nx ny nz v (a, b, c) hi -> periodic_target nx ny nz v (- a, - b, - c) lo ->
    (value_at data hi == value_at data v + d * dot3 n g /\ value_at data lo == value_at data v - d * dot3 n g)%Q) ns (firstn 13 nbs) ->
  let '(row0, row1, row2) := car2lat in
  qeq3 (get_gradient_overdetermined nx ny nz data v (firstn 13 nbs) car2lat ps) (dot3 row0 g, dot3 row1 g, dot3 row2 g).
Proof.
  intros G PI F. enough (R : qeq3 (get_gradient_overdetermined nx ny nz data v (firstn 13 nbs) car2lat ps) (rows_vec car2lat g)).
  { destruct car2lat as [[[[a00 a01] a02] [[a10 a11] a12]] [[a20 a21] a22]], g as [[g1 g2] g3]. exact R. }
  unfold get_gradient_overdetermined. assert (E : qeq3 (mat_vec ps (map (over_diff nx ny nz data v) (firstn 13 nbs))) g).
  { apply (C241_exact ns); [exact PI|]. clear PI. assert (IN : forall x, In x (firstn 13 nbs) -> In x nbs) by (intros x X; rewrite <- (firstn_skipn 13 nbs); apply in_or_app; now left). revert IN F. generalize (firstn 13 nbs) as l. intros l IN F.
    induction F as [|n [[[a b] c] d] ns l H _ IH]; [constructor|]. cbn [map]. constructor; [|apply IH; intros x X; apply IN; now right].
    pose proof (IN _ (or_introl eq_refl)) as I. enough (K : forall q, slope_along v (a, b, c) d q -> (q == dot3 n g)%Q) by (apply K, over_diff_spec; assumption). intros q S. destruct (Hnbs _ _ I) as [_ D]. destruct S as (hi & lo & P1 & P2 & S). destruct (H hi lo P1 P2) as [H1 H2]. cbv zeta in S. set (m := value_at data v) in *. set (x := value_at data hi) in *. set (y := value_at data lo) in *. set (t := dot3 n g) in *. clearbody m x y t.
    destruct S as [(S1 & S2 & S3)|(_ & S)].
    - rewrite S3. assert (A : (d * t <= 0)%Q) by lra. assert (B : (0 <= d * t)%Q) by lra. assert (Z : (d * t == 0)%Q) by lra. apply Qmult_integral in Z as [Z|Z]; [lra|]. now rewrite Z.
    - assert (Z : ((q - t) * (2 * d) == 0)%Q) by lra. apply Qmult_integral in Z as [Z|Z]; lra. }
  destruct (mat_vec ps _) as [[x y] z], g as [[g1 g2] g3]. destruct car2lat as [[[[a00 a01] a02] [[a10 a11] a12]] [[a20 a21] a22]]. cbn [qeq3 rows_vec] in *. destruct E as (-> & -> & ->). repeat split; reflexivity.
Qed.

Variable vac : arr3 bool.
Hypothesis Hvac : forall v w, grid v -> grid w -> value_at vac w = true -> value_at vac v = false ->
  (value_at data w < value_at data v)%Q.
Notation ismax := (is_maximum nx ny nz data (map fst nbs) vac).
Variable mx : arr3 bool.
Hypothesis Hmx : forall v, grid v -> (value_at mx v = true <-> ismax v).
Notation ovox v := (over_voxel nx ny nz data nbs car2lat ps v).
Notation raw v := (get_gradient_overdetermined nx ny nz data v (firstn 13 nbs) car2lat ps).

(** The stored gradient: the raw one over its largest component, or the step to the steepest neighbour where it is 0. *)
Definition over_gradient (v : Z * Z * Z) (g : q3) : Prop :=
  exists m, max_norm (raw v) m /\ let '(a, b, c) := g in
  ((m < 1 # 10 ^ 30)%Q /\ exists s w, In s (map fst nbs) /\ periodic_target nx ny nz v s w /\ steepest nx ny nz data nbs v w /\
     let '(x, y, z) := s in (a == inject_Z x /\ b == inject_Z y /\ c == inject_Z z)%Q) \/
  ((1 # 10 ^ 30 <= m)%Q /\ let '(x, y, z) := raw v in (a * m == x /\ b * m == y /\ c * m == z)%Q).
Lemma over_voxel_spec v : grid v -> value_at vac v = false -> value_at mx v = false ->
  over_gradient v (fst (ovox v)) /\ le3 (fst (ovox v)) 1 /\
  (exists p t, nearest3 (fst (ovox v)) p /\ periodic_target nx ny nz v p t /\
    (((value_at data v < value_at data t)%Q /\ snd (ovox v) = t) \/ ((value_at data t <= value_at data v)%Q /\ steepest nx ny nz data nbs v (snd (ovox v))))) /\
  grid (snd (ovox v)) /\ (value_at data v < value_at data (snd (ovox v)))%Q /\ value_at vac (snd (ovox v)) = false.
Proof.
  intros G V M. destruct (nonmax_best nx ny nz Hx Hy Hz data nbs Hnbs vac Hvac mx Hmx v G V M) as (SB & GB & LB & VB).
  pose proof (best_shift nx ny nz Hx Hy Hz data nbs Hnbs vac Hvac mx Hmx v G V M) as BS. unfold over_voxel, over_gradient.
  set (r := raw v) in *. clearbody r.
  pose proof (max_abs_spec r) as MN. set (m := max_abs r) in *. clearbody m. pose proof (max_norm_nonneg r m MN) as M0.
  destruct (Qltb_spec m tiny) as [LT|GE].
  - destruct (get_best_neighbor nx ny nz data v nbs) as [[[a b] c] w]. cbn [fst snd] in *. destruct BS as (I & PT & U).
    split; [|split; [|split]].
    + exists m. split; [exact MN|]. left. split; [exact LT|]. exists (a, b, c), w. repeat split; auto; reflexivity.
    + destruct U as (U1 & U2 & U3). cbn [le3]. unfold inject_Z, Qle. cbn. lia.
    + exists (a, b, c), w. split; [|split; [exact PT|left; auto]]. cbn [nearest3].
      assert (NE : forall z, nearest_even (inject_Z z) z) by (intros z; split; [split; lra|intros [K|K]; exfalso; lra]). auto.
    + auto.
  - destruct r as [[a b] c] eqn:Er. cbn [fst snd].
    assert (Mp : (0 < m)%Q) by (pose proof tiny_pos; lra).
    assert (LE : le3 (a / m, b / m, c / m)%Q 1).
    { destruct MN as [(K1 & K2 & K3) _]. cbn [le3].
      repeat split; (apply Qle_shift_div_r || apply Qle_shift_div_l); lra. }
    set (p := round3 (a / m, b / m, c / m)%Q). set (t := step_to nx ny nz v p).
    assert (PT : periodic_target nx ny nz v p t /\ grid t).
    { apply (step_two nx ny nz Hx Hy Hz); [exact G|]. unfold p, round3. destruct LE as (L1 & L2 & L3).
      pose proof (nearest_even_bound (a / m) (py_round (a / m)) 1 ltac:(change (inject_Z 1) with 1%Q; lra) (py_round_spec (a / m))).
      pose proof (nearest_even_bound (b / m) (py_round (b / m)) 1 ltac:(change (inject_Z 1) with 1%Q; lra) (py_round_spec (b / m))).
      pose proof (nearest_even_bound (c / m) (py_round (c / m)) 1 ltac:(change (inject_Z 1) with 1%Q; lra) (py_round_spec (c / m))). lia. }
    destruct PT as [PT Gt]. change @rd with @value_at.
    split; [|split; [exact LE|split]].
    + exists m. split; [exact MN|]. right. split; [exact GE|]. cbv beta iota. repeat split; field; lra.
    + exists p, t. split; [unfold p, round3, nearest3; repeat split; apply py_round_spec|]. split; [exact PT|].
      destruct (Qle_bool (value_at data t) (value_at data v)) eqn:E; cbn [snd].
      * right. apply Qle_bool_iff in E. auto.
      * left. split; [|reflexivity]. apply Qnot_le_lt. intros K. apply Qle_bool_iff in K. congruence.
    + destruct (Qle_bool (value_at data t) (value_at data v)) eqn:E; cbn [snd]; [auto|].
      assert (L : (value_at data v < value_at data t)%Q) by (apply Qnot_le_lt; intros K; apply Qle_bool_iff in K; congruence).
      split; [exact Gt|]. split; [exact L|]. destruct (value_at vac t) eqn:Vt; [|reflexivity]. specialize (Hvac v t G Gt Vt V). lra.
Qed.

Variable L0 : list Z.
Hypothesis HL0 : length L0 = N.
Variable order : list nat.
Hypothesis Hord : covers nx ny nz order.
(** C242: after the loop, in whatever order it runs, a voxel that is neither vacuum nor a maximum points to a higher one
    that is not vacuum, by its rounded gradient if that leads upwards and to its steepest neighbour if not; the labels
    of the others stay.  All stored gradients are at most 1, so that every climb along them ends at one maximum. *)
Theorem C242_pointers : exists P grad, unpack2 (get_gradient_pointers_overdetermined nx ny nz data nbs car2lat ps vac mx order L0) = Some (VLabels P, VGradients grad) /\
  length P = length L0 /\
  (forall v, grid v -> value_at vac v = true \/ value_at mx v = true -> nth_error P (num v) = nth_error L0 (num v)) /\
  (forall v, grid v -> value_at vac v = false -> value_at mx v = false -> over_gradient v (grad v) /\
    exists w, nth_error P (num v) = Some (Z.of_nat (num w)) /\ points_to nx ny nz data nbs grad v w /\ grid w /\ (value_at data v < value_at data w)%Q /\ value_at vac w = false) /\
  (forall v, grid v -> le3 (grad v) 1).
Proof.
  eexists _, _. split; [reflexivity|]. split; [apply par_loop_length|].
  assert (NTH : forall v, grid v -> nth_error (par_loop (over_cell nx ny nz data nbs car2lat ps vac mx) order L0) (num v) =
    if value_at vac v then nth_error L0 (num v) else if value_at mx v then nth_error L0 (num v) else Some (Z.of_nat (num (snd (ovox v))))).
  { intros v Hv. pose proof (voxel_number_lt nx ny nz Hx0 Hy0 Hz0 v Hv) as L.
    rewrite (nth_error_nth_lt (par_loop _ order L0) (num v) 0) by (rewrite par_loop_length, HL0; exact L). rewrite par_loop_nth by (rewrite HL0; exact L).
    replace (existsb (Nat.eqb (num v)) order) with true.
    2:{ symmetry. apply existsb_exists. exists (num v). split; [now apply Hord|apply Nat.eqb_refl]. }
    unfold over_cell. rewrite (unflat_voxel_number nx ny nz v Hv). change @rd with @value_at. destruct (value_at vac v) eqn:EV.
    - symmetry. apply nth_error_nth_lt. rewrite HL0. exact L.
    - destruct (value_at mx v) eqn:EM.
      + symmetry. apply nth_error_nth_lt. rewrite HL0. exact L.
      + f_equal. rewrite <- flat_voxel_number. destruct (over_voxel_spec v Hv EV EM) as (_ & _ & _ & Hb & _). destruct (snd (ovox v)) as [[i j] k]. pose proof (coords_flat_range i j k nx ny nz Hb). unfold flat. lia. }
  assert (GR : forall v, value_at vac v = false -> value_at mx v = false -> over_gradients nx ny nz data nbs car2lat ps vac mx v = fst (ovox v)).
  { intros v V M. unfold over_gradients. change @rd with @value_at. now rewrite V, M. }
  split; [|split].
  - intros v G [V|M]; rewrite NTH by exact G; [now rewrite V|]. rewrite M. now destruct (value_at vac v).
  - intros v G V M. rewrite GR by assumption. destruct (over_voxel_spec v G V M) as (A & _ & B & C & D & E). split; [exact A|]. exists (snd (ovox v)). rewrite NTH, V, M by exact G. split; [reflexivity|]. split; [|auto]. unfold points_to. rewrite GR by assumption. exact B.
  - intros v G. destruct (value_at vac v) eqn:V; [|destruct (value_at mx v) eqn:M].
    + unfold over_gradients. change @rd with @value_at. rewrite V. cbn. repeat split; lra.
    + unfold over_gradients. change @rd with @value_at. rewrite V, M. cbn. repeat split; lra.
    + rewrite GR by assumption. now apply over_voxel_spec.
Qed.
End Voxel.
Theorem C242_climb : forall nx ny nz, 2 <= nx -> 2 <= ny -> 2 <= nz ->
  forall data nbs, (forall s d, In (s, d) nbs -> unit_offset s /\ (0 < d)%Q) ->
  forall vac, (forall v w, in_grid nx ny nz v -> in_grid nx ny nz w ->
     value_at vac w = true -> value_at vac v = false -> (value_at data w < value_at data v)%Q) ->
  forall mx, (forall v, in_grid nx ny nz v -> value_at mx v = true <-> is_maximum nx ny nz data (map fst nbs) vac v) ->
  forall car2lat ps v, in_grid nx ny nz v -> value_at vac v = false ->
  exists m, is_maximum nx ny nz data (map fst nbs) vac m /\ forall m',
    climbs_to nx ny nz data nbs (over_gradients nx ny nz data nbs car2lat ps vac mx) (fun v => value_at vac v = true) (fun v => value_at mx v = true) v m' <-> m' = m.
Proof.
  intros nx ny nz Hx Hy Hz data nbs Hnbs vac Hvac mx Hmx car2lat ps v G V. apply C13_climb; auto. intros u U.
  destruct (C242_pointers nx ny nz Hx Hy Hz data nbs Hnbs car2lat ps vac Hvac mx Hmx (repeat 0 (Z.to_nat (nx * ny * nz))) (repeat_length _ _) (seq 0 (Z.to_nat (nx * ny * nz)))) as (P & grad & E & _ & _ & _ & B).
  { intros w W. apply in_seq. lia. }
  injection E as _ <-. now apply B.
Qed.
(** C243: the near-grid method takes three values from it, and fails for every input. *)
Theorem C243_unpack_refuted : forall nx ny nz data nbs car2lat ps vac mx order labels,
  unpack3 (get_gradient_pointers_overdetermined nx ny nz data nbs car2lat ps vac mx order labels) = None.
Proof. reflexivity. Qed.
(** Three axes and their opposites; the data grow by (2, 3, -1) around the middle. *)
Definition axes6 : list (offset * Q) := [((1, 0, 0), 1%Q); ((0, 1, 0), 1%Q); ((0, 0, 1), 1%Q); ((-1, 0, 0), 1%Q); ((0, -1, 0), 1%Q); ((0, 0, -1), 1%Q)].
Definition units6 : list q3 := [(1, 0, 0); (0, 1, 0); (0, 0, 1); (-(1), 0, 0); (0, -(1), 0); (0, 0, -(1))]%Q.
Definition halves6 : list q3 := map (qscale (1 # 2)) units6.
Definition id3 : q3 * q3 * q3 := ((1, 0, 0), (0, 1, 0), (0, 0, 1))%Q.
Definition slope3 : arr3 Q := fun i j k => inject_Z (2 * i + 3 * j - k + 10).
Example C241_ex : pseudo_inverse units6 halves6 /\
  qeq3 (get_gradient_overdetermined 3 3 3 slope3 (1, 1, 1) (firstn 13 axes6) id3 halves6) (2, 3, -(1))%Q /\
  (residual units6 [2; 3; 0; -(1); -(3); 1] (3 # 2, 3, -(1 # 2)) == 1)%Q.
Proof.
  split; [split|].
  - unfold units6, halves6. cbn [map qscale]. repeat constructor; cbn; repeat split; reflexivity.
  - intros [[x y] z]. cbn. repeat split; ring.
  - split; [vm_compute; repeat split; reflexivity|reflexivity].
Qed.
Example C242_ex : exists P g, get_gradient_pointers_overdetermined 3 3 3 slope3 axes6 id3 halves6 (fun _ _ _ => false)
    (fun i j k => (i =? 2) && (j =? 2) && (k =? 0)) (seq 0 27) (repeat 7 27) = [VLabels P; VGradients g] /\
  P = [24; 24; 26; 6; 7; 8; 24; 24; 26; 24; 25; 26; 24; 25; 26; 24; 25; 26; 24; 24; 26; 24; 25; 26; 7; 24; 24] /\ qeq3 (g (1, 1, 1)) (2 # 3, 1, -(1 # 3))%Q.
Proof. eexists _, _. split; [reflexivity|]. split; [vm_compute; reflexivity|vm_compute; repeat split; reflexivity]. Qed.
Print Assumptions C241_least.
Print Assumptions C241_exact.
Print Assumptions C241_linear.
Print Assumptions C242_pointers.
Print Assumptions C242_climb.
Print Assumptions C243_unpack_refuted.
