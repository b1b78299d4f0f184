(** Properties of the three-dimensional plots. *)
From Coq Require Import QArith Qabs Qround Qminmax Lqa Lia.
From Verif Require Import Base GridModel ChargeModel NearModel RefineModel RefineProofs CoordModel CoordProofs TextModel VaspModel StructModel StructProps ViewModel.
Local Open Scope Z_scope.

Lemma qlt_spec a b : qlt a b = true <-> (a < b)%Q.
Proof. unfold qlt. rewrite negb_true_iff, <- not_true_iff_false, Qle_bool_iff. split; [apply Qnot_le_lt|intros H C; lra]. Qed.
Lemma qlt_no a b : qlt a b = false <-> (b <= a)%Q.
Proof. unfold qlt. now rewrite negb_false_iff, Qle_bool_iff. Qed.

(** ** Images of atoms *)
Definition inside (tol x : Q) : Prop := (- tol < x < 1 + tol)%Q.
Lemma edge_shifts_spec tol x : (0 < tol <= 1 # 2)%Q -> inside tol x -> NoDup (edge_shifts tol x) /\ forall a, In a (edge_shifts tol x) <-> inside tol (x + inject_Z a).
Proof.
  intros T [L R]. unfold edge_shifts, inside.
  assert (B : forall a, a <= -2 \/ a = -1 \/ a = 0 \/ a = 1 \/ 2 <= a) by lia.
  assert (S : forall a, a <= -2 -> (inject_Z a <= -2)%Q) by (intros a A; rewrite Zle_Qle in A; exact A). assert (G : forall a, 2 <= a -> (2 <= inject_Z a)%Q) by (intros a A; rewrite Zle_Qle in A; exact A).
  destruct (qlt (Qabs x) tol) eqn:E; [|destruct (qlt (Qabs (x - 1)) tol) eqn:F].
  - apply qlt_spec, Qabs_Qlt_condition in E. split; [repeat constructor; cbn; intuition lia|]. intros a. cbn [In]. destruct (B a) as [A|[-> |[-> |[-> |A]]]].
    + specialize (S a A). split; [lia|lra].
    + change (inject_Z (-1)) with (-1)%Q. split; [lia|lra].
    + change (inject_Z 0) with 0%Q. split; [intros _; lra|tauto].
    + change (inject_Z 1) with 1%Q. split; [intros _; lra|tauto].
    + specialize (G a A). split; [lia|lra].
  - apply qlt_no in E. apply qlt_spec, Qabs_Qlt_condition in F. assert (N : (tol <= x)%Q) by (destruct (Qlt_le_dec x tol) as [C|C]; [exfalso; revert E; apply Qlt_not_le, Qabs_Qlt_condition; lra|exact C]).
    split; [repeat constructor; cbn; intuition lia|]. intros a. cbn [In]. destruct (B a) as [A|[-> |[-> |[-> |A]]]].
    + specialize (S a A). split; [lia|lra].
    + change (inject_Z (-1)) with (-1)%Q. split; [intros _; lra|tauto].
    + change (inject_Z 0) with 0%Q. split; [intros _; lra|tauto].
    + change (inject_Z 1) with 1%Q. split; [lia|lra].
    + specialize (G a A). split; [lia|lra].
  - apply qlt_no in E, F. assert (N : (tol <= x)%Q) by (destruct (Qlt_le_dec x tol) as [C|C]; [exfalso; revert E; apply Qlt_not_le, Qabs_Qlt_condition; lra|exact C]).
    assert (M : (x <= 1 - tol)%Q) by (destruct (Qlt_le_dec (1 - tol) x) as [C|C]; [exfalso; revert F; apply Qlt_not_le, Qabs_Qlt_condition; lra|exact C]).
    split; [repeat constructor; cbn; intuition lia|]. intros a. cbn [In]. destruct (B a) as [A|[-> |[-> |[-> |A]]]].
    + specialize (S a A). split; [lia|lra].
    + change (inject_Z (-1)) with (-1)%Q. split; [lia|lra].
    + change (inject_Z 0) with 0%Q. split; [intros _; lra|tauto].
    + change (inject_Z 1) with 1%Q. split; [lia|lra].
    + specialize (G a A). split; [lia|lra].
Qed.
Lemma nodup_prod {A B} (l : list A) (r : list B) : NoDup l -> NoDup r -> NoDup (list_prod l r).
Proof.
  intros L R. induction L as [|a l N L IH]; [constructor|]. cbn [list_prod].
  assert (M : NoDup (map (fun y => (a, y)) r)) by (clear - R; induction R as [|b r N R IH]; cbn; constructor; [|exact IH]; intros C; apply in_map_iff in C as (y & E & Y); injection E as ->; contradiction).
  assert (X : forall z, In z (map (fun y => (a, y)) r) -> ~ In z (list_prod l r)). { intros [z1 z2] Z1 Z2. apply in_map_iff in Z1 as (y & E & _). injection E as -> ->. apply in_prod_iff in Z2 as [Z2 _]. contradiction. }
  clear - M IH X. induction M as [|z zs N M IHM]; [exact IH|]. cbn [app]. constructor; [intros C; apply in_app_iff in C as [C|C]; [contradiction|]; apply (X z); [now left|exact C]|]. apply IHM. intros y Y. apply X. now right.
Qed.

(** C227: an atom of the cell is drawn at exactly those of its translates that lie in the cell, up to the tolerance,
    and once at each. *)
Theorem C227_images tol x y z : (0 < tol <= 1 # 2)%Q -> inside tol x -> inside tol y -> inside tol z -> forall w,
  In w (get_edge_atom_fracs tol (x, y, z)) <-> exists a b c, w = (x + inject_Z a, y + inject_Z b, z + inject_Z c)%Q /\
  inside tol (x + inject_Z a) /\ inside tol (y + inject_Z b) /\ inside tol (z + inject_Z c).
Proof.
  intros T X Y Z w. destruct (edge_shifts_spec tol x T X) as [_ SX], (edge_shifts_spec tol y T Y) as [_ SY], (edge_shifts_spec tol z T Z) as [_ SZ]. unfold get_edge_atom_fracs, all_shifts. rewrite in_map_iff. split.
  - intros ([[a b] c] & <- & I). rewrite !in_prod_iff in I. destruct I as [[I J] K]. exists a, b, c. split; [reflexivity|]. rewrite <- SX, <- SY, <- SZ. tauto.
  - intros (a & b & c & -> & I & J & K). exists (a, b, c). split; [reflexivity|]. rewrite !in_prod_iff, SX, SY, SZ. tauto.
Qed.
Theorem C227_once tol v i j w w' : (0 < tol <= 1 # 2)%Q -> (let '(x, y, z) := v in inside tol x /\ inside tol y /\ inside tol z) ->
  nth_error (get_edge_atom_fracs tol v) i = Some w -> nth_error (get_edge_atom_fracs tol v) j = Some w' -> veq w w' -> i = j.
Proof.
  destruct v as [[x y] z]. intros T (X & Y & Z) E F V.
  destruct (edge_shifts_spec tol x T X) as [DX _], (edge_shifts_spec tol y T Y) as [DY _], (edge_shifts_spec tol z T Z) as [DZ _]. unfold get_edge_atom_fracs in E, F. rewrite nth_error_map in E, F.
  assert (D : NoDup (all_shifts tol (x, y, z))) by (apply nodup_prod; [apply nodup_prod|]; assumption).
  destruct (nth_error (all_shifts tol (x, y, z)) i) as [[[a b] c]|] eqn:I; [|discriminate E]. destruct (nth_error (all_shifts tol (x, y, z)) j) as [[[a' b'] c']|] eqn:J; [|discriminate F]. injection E as <-. injection F as <-.
  destruct V as (V1 & V2 & V3). assert (K : forall p (u u' : BinInt.Z), (p + inject_Z u == p + inject_Z u')%Q -> u = u'). { intros p u u' H. assert (H' : (inject_Z u == inject_Z u')%Q) by lra. unfold Qeq in H'. cbn in H'. lia. }
  apply K in V1 as <-, V2 as <-, V3 as <-. eapply (NoDup_nth_error (all_shifts tol (x, y, z))); [exact D| |congruence]. apply nth_error_Some. congruence.
Qed.
Example C227_corner : length (get_edge_atom_fracs (1 # 100) (0, 1, 1 # 1000)%Q) = 8%nat.
Proof. reflexivity. Qed.
Example C227_face : map (vmap Qred) (get_edge_atom_fracs (1 # 100) (1 # 2, 1, 1 # 3)%Q) = [(1 # 2, 1, 1 # 3); (1 # 2, 0, 1 # 3)]%Q.
Proof. reflexivity. Qed.

(** ** The camera *)
Lemma sq_le_2 q : (q * q <= 2 -> - (3 # 2) <= q <= 3 # 2)%Q.
Proof. intros H. split; apply Qnot_lt_le; intros C; nra. Qed.
Lemma along_dot axis v : (vdot (along axis v) v == vdot axis v * (1 - norm2 v))%Q.
Proof. destruct axis as [[a b] c], v as [[x y] z]. cbn [along vdot scaled vsub norm2]. ring. Qed.
Lemma rotated_dot c s v up : (vdot (rotated c s v up) v == c * vdot up v)%Q.
Proof. destruct up as [[a b] d], v as [[x y] z]. cbn [rotated vdot scaled vadd mcross]. ring. Qed.
Lemma unit_bound e v : (0 <= e <= 1 # 10 -> (1 - e) * norm2 v <= 1 -> 1 <= (1 + e) * norm2 v -> 90 # 100 <= norm2 v /\ norm2 v <= 112 # 100 /\ - ((112 # 100) * e) <= 1 - norm2 v <= (112 # 100) * e)%Q.
Proof. intros E A B. set (n := norm2 v) in *. clearbody n. assert (P : (0 <= n)%Q) by nra. assert (U : (n <= 112 # 100)%Q) by nra. repeat split; nra. Qed.
Lemma comp_sq v : (let '(x, y, z) := v in y * y <= norm2 v /\ z * z <= norm2 v /\ y * y + z * z <= norm2 v)%Q.
Proof. destruct v as [[x y] z]. cbn [norm2]. pose proof (sq_nonneg x). pose proof (sq_nonneg y). pose proof (sq_nonneg z). lra. Qed.
Definition good_root (e : Q) (root : Q -> Q) : Prop := near_root e root /\ (forall x, 0 <= root x)%Q /\ (forall x, x == 0 -> root x == 0)%Q.
Example good_sqrt20 : good_root (1 # 10) sqrt20.
Proof.
  split; [exact C33_root|]. split; intros [p q]; unfold sqrt20, Qle, Qeq; cbn [Qnum Qden]; [pose proof (Z.sqrt_nonneg (p * Zpos q * 400)); lia|]. intros H. assert (p = 0) as -> by lia. reflexivity.
Qed.
Lemma norm2_nonneg v : (0 <= norm2 v)%Q.
Proof. destruct v as [[x y] z]. cbn [norm2]. pose proof (sq_nonneg x). pose proof (sq_nonneg y). pose proof (sq_nonneg z). lra. Qed.
Lemma view_up_nonzero e root v : (0 <= e <= 1 # 10)%Q -> good_root e root -> ((1 - e) * norm2 v <= 1)%Q -> (1 <= (1 + e) * norm2 v)%Q -> (0 < norm2 (view_up root v))%Q.
Proof.
  intros E (RN & RP & RZ) U1 U2. destruct (unit_bound e v E U1 U2) as (L & U & _). unfold view_up. set (u0 := along (0, 0, 1)%Q v). pose proof (norm2_nonneg u0) as G. destruct (qlt (root (norm2 u0)) (1 # 100000000000000)) eqn:Q.
  - apply qlt_spec in Q. assert (S : (norm2 u0 <= 1 # 100)%Q).
    { apply Qnot_lt_le. intros C. destruct (RN (norm2 u0) ltac:(lra)) as [A _]. specialize (RP (norm2 u0)). set (r := root (norm2 u0)) in *. set (n := norm2 u0) in *. clearbody r n. assert (r * r <= 1 # 1000)%Q by nra. nra. }
    assert (F : (norm2 u0 == 1 - snd v * snd v * (2 - norm2 v))%Q) by (subst u0; destruct v as [[x y] z]; cbn [along vdot scaled vsub norm2 snd]; ring).
    assert (H : (norm2 (along (0, 1, 0) v) == 1 - snd (fst v) * snd (fst v) * (2 - norm2 v))%Q) by (destruct v as [[x y] z]; cbn [along vdot scaled vsub norm2 snd fst]; ring).
    rewrite H. rewrite F in S. pose proof (comp_sq v) as K. destruct v as [[x y] z]. cbn [snd fst] in *. set (n := norm2 (x, y, z)) in *. clearbody n. destruct K as (_ & _ & K). set (yy := (y * y)%Q) in *. set (zz := (z * z)%Q) in *. assert (Y0 : (0 <= yy)%Q) by apply sq_nonneg. assert (Z0 : (0 <= zz)%Q) by apply sq_nonneg. clearbody yy zz. assert (Z1 : (9 # 10 <= zz)%Q) by nra. assert (Y1 : (yy <= 22 # 100)%Q) by lra. nra.
  - apply qlt_no in Q. apply Qle_lteq in G as [G|G]; [exact G|]. exfalso. specialize (RZ (norm2 u0) ltac:(now symmetry)). rewrite RZ in Q. vm_compute in Q. now apply Q.
Qed.
Lemma max_radius_spec radii : radii <> [] -> exists r, max_radius radii = Some r /\ (forall x, In x radii -> x <= r)%Q /\ exists x, In x radii /\ (x == r)%Q.
Proof.
  destruct radii as [|a l]; [congruence|]. intros _. eexists. split; [reflexivity|]. revert a. induction l as [|b l IH]; intros a; cbn [fold_left].
  - split; [intros x [-> |[]]; lra|]. exists a. split; [now left|reflexivity].
  - destruct (IH (Qmax a b)) as [A (x & X & E)]. split.
    + intros y [-> |[-> |Y]].
      * apply Qle_trans with (Qmax y b); [apply Q.le_max_l|]. apply A. now left.
      * apply Qle_trans with (Qmax a y); [apply Q.le_max_r|]. apply A. now left.
      * apply A. now right.
    + destruct X as [<- |X]; [|exists x; split; [right; now right|exact E]]. destruct (Q.max_spec a b) as [[_ M]|[_ M]]; [exists b|exists a]; (split; [cbn; tauto|etransitivity; [symmetry; exact M|exact E]]).
Qed.

(** C228: the camera looks along the normal of the plane at the middle of the cell, from further away than the largest
    radius; and the direction that is up is perpendicular to the view, up to the error of the root, and not zero. *)
Theorem C228_camera e root m radii h k l c s : (0 <= e <= 1 # 10)%Q -> good_root e root -> ~ (det3 m == 0)%Q -> radii <> [] -> (-1 <= c <= 1)%Q ->
  exists pos focal up dist v, camera root m radii h k l c s = Some (pos, focal, up) /\
  veq focal (vmat (1 # 2, 1 # 2, 1 # 2)%Q m) /\ veq pos (vadd focal (scaled dist v)) /\ (forall r, In r radii -> r <= dist)%Q /\
  ((1 - e) * norm2 v <= 1 /\ 1 <= (1 + e) * norm2 v)%Q /\
  (forall u, (if (h =? 0) && (k =? 0) && (l =? 0) then fst (fst u) == 0 else vdot (inject_Z h, inject_Z k, inject_Z l) u == 0)%Q -> (vdot v (vmat u m) == 0)%Q) /\
  (- (2 * e) <= vdot up v <= 2 * e)%Q /\ ((c == 1)%Q -> (s == 0)%Q -> (0 < norm2 up)%Q).
Proof.
  intros E R D NE C. unfold camera. set (hkl := if (h =? 0) && (k =? 0) && (l =? 0) then (1, 0, 0) else (h, k, l)).
  assert (NZ : let '(h, k, l) := hkl in ~ (h = 0 /\ k = 0 /\ l = 0)). { subst hkl. destruct ((h =? 0) && (k =? 0) && (l =? 0)) eqn:Z0; [lia|]. intros (-> & -> & ->). discriminate Z0. }
  assert (PL : forall u, (if (h =? 0) && (k =? 0) && (l =? 0) then fst (fst u) == 0 else vdot (inject_Z h, inject_Z k, inject_Z l) u == 0)%Q -> (let '(h, k, l) := hkl in dot3 (inject_Z h, inject_Z k, inject_Z l) u == 0)%Q).
  { intros [[u1 u2] u3]. subst hkl. destruct ((h =? 0) && (k =? 0) && (l =? 0)); [|exact (fun H => H)]. cbn [fst]. intros H. unfold dot3. change (inject_Z 1) with 1%Q. change (inject_Z 0) with 0%Q. lra. }
  clearbody hkl. destruct hkl as [[h' k'] l']. pose proof R as (RN & RP & _). destruct (C33_perpendicular root m h' k' l' NZ) as (v & EV & PV). destruct (C33_unit e root m h' k' l' ltac:(lra) RN NZ D) as (v' & EV' & U1 & U2). rewrite EV in EV'. injection EV' as <-. rewrite EV. cbn [obnd]. destruct (max_radius_spec radii NE) as (r & ER & MR & _). rewrite ER. cbn [obnd]. destruct m as [[va vb] vc]. set (dist := (root (norm2 va) + root (norm2 vb) + root (norm2 vc) + r)%Q).
  eexists _, _, _, dist, v. split; [reflexivity|]. split; [|split; [|split; [|split; [|split; [|split]]]]].
  - destruct va as [[a1 a2] a3], vb as [[b1 b2] b3], vc as [[c1 c2] c3]. unfold far_corner, vadd, vmap, vmat, veq. repeat split; field.
  - destruct (vadd _ _) as [[? ?] ?]. repeat split; reflexivity.
  - intros x X. specialize (MR x X). subst dist. pose proof (RP (norm2 va)). pose proof (RP (norm2 vb)). pose proof (RP (norm2 vc)). lra.
  - split; assumption.
  - intros u HU. apply PV, PL, HU.
  - destruct (unit_bound e v E U1 U2) as (_ & U & B). rewrite rotated_dot. assert (G : (exists q, vdot (view_up root v) v == q * (1 - norm2 v) /\ q * q <= norm2 v)%Q).
    { unfold view_up. pose proof (comp_sq v) as K. destruct v as [[x y] z]. destruct (qlt _ _); [exists y|exists z]; (split; [rewrite along_dot; cbn [vdot]; ring|tauto]). }
    destruct G as (q & -> & Q2). assert (W : (- (3 # 2) <= q <= 3 # 2)%Q) by (apply sq_le_2; lra). set (d := (1 - norm2 v)%Q) in *. clearbody d. assert (A : (- (2 * e) <= q * d <= 2 * e)%Q) by (split; nra). set (t := (q * d)%Q) in *. clearbody t. split; nra.
  - intros C1 S0. pose proof (view_up_nonzero e root v E R U1 U2) as G. set (up := view_up root v) in *. clearbody up. assert (K : (norm2 (rotated c s v up) == norm2 up)%Q) by (destruct up as [[a b] d], v as [[x y] z]; cbn [rotated vadd scaled mcross norm2]; rewrite C1, S0; ring). now rewrite K.
Qed.
Example C228_cubic : option_map (fun '(p, f, u) => (vmap Qred p, vmap Qred f, vmap Qred u)) (camera sqrt20 ((2, 0, 0), (0, 2, 0), (0, 0, 2))%Q [1; 3]%Q 0 0 1 0%Q 1%Q)
  = Some ((1, 1, 10), (1, 1, 1), (-1, 0, 0))%Q.
Proof. vm_compute. reflexivity. Qed.
Example C228_zero : camera sqrt20 ((2, 0, 0), (0, 2, 0), (0, 0, 2))%Q [1; 3]%Q 0 0 0 1%Q 0%Q = camera sqrt20 ((2, 0, 0), (0, 2, 0), (0, 0, 2))%Q [1; 3]%Q 1 0 0 1%Q 0%Q.
Proof. reflexivity. Qed.

(** ** The outline of the cell *)
Definition corner (m : mat) (i j k : Z) : vec := vmat (inject_Z i, inject_Z j, inject_Z k) m.
Definition edge_of (i j k d1 d2 d3 : Z) : Prop :=
  0 <= i /\ 0 <= j /\ 0 <= k /\ 0 <= d1 /\ 0 <= d2 /\ 0 <= d3 /\ d1 + d2 + d3 = 1 /\ i + d1 <= 1 /\ j + d2 <= 1 /\ k + d3 <= 1.
Definition plain (t : Z * Z * Z * (Z * Z * Z)) (m : mat) (s : vec * vec) : Prop :=
  let '((i, j, k), (d1, d2, d3)) := t in veq (fst s) (corner m i j k) /\ veq (snd s) (corner m (i + d1) (j + d2) (k + d3)).
Definition cell_edges : list (Z * Z * Z * (Z * Z * Z)) :=
  [((0,0,0),(1,0,0)); ((0,0,0),(0,1,0)); ((0,0,0),(0,0,1)); ((1,0,0),(0,1,0)); ((1,0,0),(0,0,1)); ((0,1,0),(1,0,0)); ((0,1,0),(0,0,1)); ((0,0,1),(1,0,0)); ((0,0,1),(0,1,0)); ((1,1,0),(0,0,1)); ((1,0,1),(0,1,0)); ((0,1,1),(1,0,0))].
Lemma lines_edges m : Forall2 (fun s t => plain t m s) (lattice_lines m) cell_edges.
Proof.
  destruct m as [[[[a1 a2] a3] [[b1 b2] b3]] [[c1 c2] c3]]. unfold lattice_lines, mesh_edges, cell_edges. cbn [map]. repeat (constructor; [unfold plain, corner, mesh_corners, vadd, vmat, veq; cbn [nth fst snd Z.add Pos.add]; change (inject_Z 0) with 0%Q; change (inject_Z 1) with 1%Q; repeat split; ring|]). constructor.
Qed.
Lemma forall2_left {A B} (P : A -> B -> Prop) l r x : Forall2 P l r -> In x l -> exists y, In y r /\ P x y.
Proof. induction 1 as [|a b l r H _ IH]; intros I; [destruct I|]. destruct I as [-> |I]; [exists b; split; [now left|exact H]|]. destruct (IH I) as (y & Y & Q). exists y. split; [now right|exact Q]. Qed.
Lemma forall2_right {A B} (P : A -> B -> Prop) l r y : Forall2 P l r -> In y r -> exists x, In x l /\ P x y.
Proof. induction 1 as [|a b l r H _ IH]; intros I; [destruct I|]. destruct I as [-> |I]; [exists a; split; [now left|exact H]|]. destruct (IH I) as (x & X & Q). exists x. split; [now right|exact Q]. Qed.
Lemma in_cell_edges i j k d1 d2 d3 : In ((i, j, k), (d1, d2, d3)) cell_edges <-> edge_of i j k d1 d2 d3.
Proof.
  unfold edge_of. split.
  - intros I. cbn [cell_edges In] in I. repeat (destruct I as [E|I]; [injection E as <- <- <- <- <- <-; lia|]). destruct I.
  - intros H. assert (A : (i = 0 \/ i = 1) /\ (j = 0 \/ j = 1) /\ (k = 0 \/ k = 1) /\ ((d1 = 1 /\ d2 = 0 /\ d3 = 0) \/ (d1 = 0 /\ d2 = 1 /\ d3 = 0) \/ (d1 = 0 /\ d2 = 0 /\ d3 = 1))) by lia.
    destruct A as ([-> | ->] & [-> | ->] & [-> | ->] & [(-> & -> & ->)|[(-> & -> & ->)|(-> & -> & ->)]]); try lia; cbn [cell_edges In]; intuition reflexivity.
Qed.
(** C229: the outline has twelve lines; each goes from a corner of the cell along one lattice vector to another corner,
    and every such pair of corners is joined by one of them. *)
Theorem C229_lines m : length (lattice_lines m) = 12%nat /\
  (forall s, In s (lattice_lines m) -> exists i j k d1 d2 d3, edge_of i j k d1 d2 d3 /\ veq (fst s) (corner m i j k) /\ veq (snd s) (corner m (i + d1) (j + d2) (k + d3))) /\
  (forall i j k d1 d2 d3, edge_of i j k d1 d2 d3 -> exists s, In s (lattice_lines m) /\ veq (fst s) (corner m i j k) /\ veq (snd s) (corner m (i + d1) (j + d2) (k + d3))).
Proof.
  split; [reflexivity|]. split.
  - intros s I. destruct (forall2_left _ _ _ s (lines_edges m) I) as ([[[i j] k] [[d1 d2] d3]] & T & P). apply in_cell_edges in T. exists i, j, k, d1, d2, d3. split; [exact T|exact P].
  - intros i j k d1 d2 d3 H. apply in_cell_edges in H. destruct (forall2_right _ _ _ _ (lines_edges m) H) as (s & S & P). exists s. split; [exact S|exact P].
Qed.
Example C229_ex : map (fun '(a, b) => (vmap Qred a, vmap Qred b)) (firstn 2 (lattice_lines ((1, 0, 0), (0, 2, 0), (1 # 2, 0, 3))%Q)) = [((0, 0, 0), (1, 0, 0)); ((0, 0, 0), (0, 2, 0))]%Q.
Proof. reflexivity. Qed.

(** ** The structured grid *)
Lemma nth_error_seq n : forall k i, (i < n)%nat -> nth_error (seq k n) i = Some (k + i)%nat.
Proof. induction n as [|n IH]; intros k [|i] H; try lia; cbn; [f_equal; lia|]. rewrite IH by lia. f_equal. lia. Qed.
Section Structured.
Variables nx ny nz : Z.
Hypothesis Hx : 0 < nx.
Hypothesis Hy : 0 < ny.
Hypothesis Hz : 0 < nz.
Definition flat (i j k : Z) : Z := i + (nx + 1) * (j + (ny + 1) * k).
Lemma f_index_flat i j k : 0 <= i <= nx -> 0 <= j <= ny -> f_index nx ny (flat i j k) = (i, j, k).
Proof.
  intros I J. unfold f_index, flat. rewrite <- Z.div_div by lia. rewrite (Z.mul_comm (nx + 1)), Z.mod_add, Z.div_add by lia. rewrite (Z.mod_small i), (Z.div_small i) by lia. rewrite Z.add_0_l, (Z.mul_comm (ny + 1)), Z.mod_add, Z.div_add by lia. rewrite (Z.mod_small j), (Z.div_small j) by lia. now rewrite Z.add_0_l.
Qed.
Lemma reshaped_index a p : 0 <= a < 3 -> reshaped nx ny a p = (let '(i, j, k) := f_index nx ny p in np_indices a i j k).
Proof.
  intros A. unfold reshaped, f_index4, f_index. rewrite <- !Z.mul_assoc, <- !(Z.div_div _ 3) by lia. rewrite (Z.mul_comm 3 p), Z.mod_add, Z.div_add by lia. now rewrite (Z.mod_small a), (Z.div_small a), Z.add_0_l by lia.
Qed.
Lemma flat_range i j k : 0 <= i <= nx -> 0 <= j <= ny -> 0 <= k <= nz -> 0 <= flat i j k < size nx ny nz.
Proof. intros I J K. unfold flat, size. split; nia. Qed.
Lemma nth_zseq n p : 0 <= p < n -> nth_error (zseq n) (Z.to_nat p) = Some p.
Proof. intros P. unfold zseq. rewrite nth_error_map, nth_error_seq by lia. cbn. f_equal. lia. Qed.
Lemma ravel_nth {A} (a : arr3 A) i j k : 0 <= i <= nx -> 0 <= j <= ny -> 0 <= k <= nz -> nth_error (ravel_F nx ny nz a) (Z.to_nat (flat i j k)) = Some (a i j k).
Proof. intros I J K. unfold ravel_F. rewrite nth_error_map, nth_zseq by (apply flat_range; assumption). cbn [option_map]. now rewrite f_index_flat. Qed.
Lemma padded_mod {A} (a : arr3 A) i j k : 0 <= i <= nx -> 0 <= j <= ny -> 0 <= k <= nz -> padded nx ny nz a i j k = a (i mod nx) (j mod ny) (k mod nz).
Proof.
  intros I J K. unfold padded. assert (M : forall x n, 0 < n -> 0 <= x <= n -> (if x =? n then 0 else x) = x mod n). { intros x n N X. destruct (Z.eqb_spec x n) as [-> |E]; [now rewrite Z.mod_same by lia|symmetry; apply Z.mod_small; lia]. } now rewrite !M.
Qed.
(** C230: the values handed to pyvista in Fortran order belong to the points handed to it, those of the points of the
    grid and one more layer at the far sides, which repeats the first. *)
Theorem C230_aligned matrix total i j k : 0 <= i <= nx -> 0 <= j <= ny -> 0 <= k <= nz -> exists p : nat,
  nth_error (grid_values nx ny nz total) p = Some (total (i mod nx) (j mod ny) (k mod nz)) /\
  nth_error (grid_points nx ny nz matrix) p = Some (vmat (inject_Z i / inject_Z nx, inject_Z j / inject_Z ny, inject_Z k / inject_Z nz)%Q matrix) /\
  Z.of_nat p = i + (nx + 1) * (j + (ny + 1) * k).
Proof.
  intros I J K. exists (Z.to_nat (flat i j k)). pose proof (flat_range i j k I J K) as F. split; [|split].
  - unfold grid_values. rewrite ravel_nth by assumption. f_equal. now apply padded_mod.
  - unfold grid_points, grid_to_cart, frac_to_cart, grid_to_frac, indices_F. rewrite !nth_error_map, nth_zseq by exact F. cbn [option_map]. rewrite !reshaped_index by lia. now rewrite f_index_flat.
  - rewrite Z2Nat.id by lia. reflexivity.
Qed.
Theorem C230_length matrix total : length (grid_values nx ny nz total) = Z.to_nat ((nx + 1) * (ny + 1) * (nz + 1)) /\ length (grid_points nx ny nz matrix) = Z.to_nat ((nx + 1) * (ny + 1) * (nz + 1)).
Proof.
  unfold grid_values, ravel_F, grid_points, grid_to_cart, frac_to_cart, grid_to_frac, indices_F, zseq, size. now rewrite !map_length, seq_length.
Qed.

(** C231: a point is drawn with its value when its basin or its atom is to be seen, and with -1 otherwise. *)
Lemma isin_spec l x : isin l x = true <-> In x l.
Proof. unfold isin. rewrite existsb_exists. split; [intros (y & Y & E); apply Z.eqb_eq in E as ->; exact Y|intros I; exists x; split; [exact I|apply Z.eqb_refl]]. Qed.
Lemma nth_combine {A B} (l : list A) (r : list B) n x y : nth_error l n = Some x -> nth_error r n = Some y -> nth_error (combine l r) n = Some (x, y).
Proof. revert l r. induction n as [|n IH]; intros [|a l] [|b r] E F; try discriminate; cbn in *; [congruence|now apply IH]. Qed.
Theorem C231_shown total basins atoms vb va i j k : 0 <= i <= nx -> 0 <= j <= ny -> 0 <= k <= nz -> exists p : nat,
  Z.of_nat p = i + (nx + 1) * (j + (ny + 1) * k) /\
  let out := nth_error (shown_values (grid_values nx ny nz total) (hidden_mask nx ny nz basins atoms vb va)) p in
  let at_ := fun {A} (a : arr3 A) => a (i mod nx) (j mod ny) (k mod nz) in
  (In (at_ basins) vb \/ In (at_ atoms) va -> out = Some (at_ total)) /\
  (~ In (at_ basins) vb -> ~ In (at_ atoms) va -> out = Some (-1)%Q).
Proof.
  intros I J K. exists (Z.to_nat (flat i j k)). pose proof (flat_range i j k I J K) as F. split; [rewrite Z2Nat.id by lia; reflexivity|].
  cbv beta zeta. set (b := basins _ _ _). set (a := atoms _ _ _). set (t := total _ _ _).
  assert (M : nth_error (hidden_mask nx ny nz basins atoms vb va) (Z.to_nat (flat i j k)) = Some (negb (isin vb b || isin va a))).
  { unfold hidden_mask. rewrite nth_error_map, (nth_combine _ _ _ b a); [reflexivity| |]; rewrite ravel_nth by assumption; f_equal; now apply padded_mod. }
  assert (O : nth_error (shown_values (grid_values nx ny nz total) (hidden_mask nx ny nz basins atoms vb va)) (Z.to_nat (flat i j k)) = Some (if negb (isin vb b || isin va a) then (-1)%Q else t)).
  { unfold shown_values. assert (V : nth_error (grid_values nx ny nz total) (Z.to_nat (flat i j k)) = Some t) by (unfold grid_values; rewrite ravel_nth by assumption; f_equal; now apply padded_mod). rewrite nth_error_map, (nth_combine _ _ _ _ _ V M). reflexivity. }
  rewrite O. rewrite <- !isin_spec. split.
  - intros [H|H]; rewrite H; [reflexivity|]. now rewrite orb_true_r.
  - intros H1 H2. apply not_true_iff_false in H1, H2. rewrite H1, H2. reflexivity.
Qed.
Theorem C231_initial basin_atoms b : In b (initial_basins basin_atoms) <-> 0 <= b /\ nth_error basin_atoms (Z.to_nat b) = Some 0.
Proof.
  unfold initial_basins. rewrite in_map_iff. split.
  - intros ([x a] & <- & I). apply filter_In in I as [I E]. apply Z.eqb_eq in E as ->. cbn [fst]. apply In_nth_error in I as (n & N).
    assert (P : nth_error (map Z.of_nat (seq 0 (length basin_atoms))) n = Some x /\ nth_error basin_atoms n = Some 0). { revert N. generalize (map Z.of_nat (seq 0 (length basin_atoms))) as l. clear. revert basin_atoms. induction n as [|n IH]; intros [|y r] [|z l] N; try discriminate; cbn in *; [injection N as -> ->; auto|now apply IH]. }
    destruct P as [P Q]. rewrite nth_error_map in P. assert (L : (n < length basin_atoms)%nat) by (apply nth_error_Some; congruence). rewrite nth_error_seq in P by exact L. injection P as <-. rewrite Nat2Z.id. split; [lia|exact Q].
  - intros [B E]. exists (b, 0). split; [reflexivity|]. apply filter_In. split; [|reflexivity]. eapply (nth_error_In _ (Z.to_nat b)). apply nth_combine; [|exact E]. assert (L : (Z.to_nat b < length basin_atoms)%nat) by (apply nth_error_Some; congruence). rewrite nth_error_map, nth_error_seq by exact L. cbn. f_equal. lia.
Qed.
End Structured.

(** ** The isosurface *)
Lemma list_min_le l x : In x l -> (list_min l <= x)%Q.
Proof.
  destruct l as [|a l]; [intros []|]. cbn [list_min]. revert a x. induction l as [|b l IH]; intros a x I; cbn [fold_left].
  - destruct I as [-> |[]]. lra.
  - destruct I as [-> |[-> |I]].
    + apply Qle_trans with (Qmin x b); [apply IH; now left|apply Q.le_min_l].
    + apply Qle_trans with (Qmin a x); [apply IH; now left|apply Q.le_min_r].
    + apply IH. now right.
Qed.
Lemma list_max_ge l x : In x l -> (x <= list_max l)%Q.
Proof.
  destruct l as [|a l]; [intros []|]. cbn [list_max]. revert a x. induction l as [|b l IH]; intros a x I; cbn [fold_left].
  - destruct I as [-> |[]]. lra.
  - destruct I as [-> |[-> |I]].
    + apply Qle_trans with (Qmax x b); [apply Q.le_max_l|apply IH; now left].
    + apply Qle_trans with (Qmax a x); [apply Q.le_max_r|apply IH; now left].
    + apply IH. now right.
Qed.
Lemma list_min_ge l y : l <> [] -> (forall x, In x l -> y <= x)%Q -> (y <= list_min l)%Q.
Proof.
  destruct l as [|a l]; [congruence|]. intros _. cbn [list_min]. revert a. induction l as [|b l IH]; intros a H; cbn [fold_left]; [apply H; now left|]. apply IH. intros x [<- |X]; [apply Q.min_glb; apply H; cbn; tauto|apply H; cbn; tauto].
Qed.
Inductive op := SetMin (x : Q) | SetMax (x : Q) | SetIso (x : Q).
Definition run (o : op) (s : scale) : scale := match o with SetMin x => set_min x s | SetMax x => set_max x s | SetIso x => set_iso x s end.
Definition run_all (l : list op) (s : scale) : scale := fold_left (fun s o => run o s) l s.
(** C233: whatever is set, the lower end of the range stays at or below the upper end, and the value of the isosurface
    is brought into the range when it is set; a value that fits is taken as it is. *)
Theorem C233_ordered l s : (sc_min s <= sc_max s)%Q -> (sc_min (run_all l s) <= sc_max (run_all l s))%Q.
Proof.
  revert s. induction l as [|o l IH]; intros s H; [exact H|]. cbn [run_all fold_left]. apply IH. destruct o; cbn [run set_min set_max set_iso sc_min sc_max]; [apply Q.le_min_l|apply Q.le_max_l|exact H].
Qed.
Theorem C233_iso x s : (sc_min s <= sc_max s)%Q -> (sc_min s <= sc_iso (set_iso x s) <= sc_max s)%Q /\ ((sc_min s <= x <= sc_max s)%Q -> (sc_iso (set_iso x s) == x)%Q).
Proof.
  intros H. cbn [set_iso sc_iso]. destruct (Q.min_spec x (sc_max s)) as [[A B]|[A B]]; destruct (Q.max_spec (sc_min s) (Qmin x (sc_max s))) as [[C D]|[C D]]; split; intros; lra.
Qed.
Theorem C233_taken x s : ((x <= sc_max s)%Q -> (sc_min (set_min x s) == x)%Q) /\ ((sc_min s <= x)%Q -> (sc_max (set_max x s) == x)%Q).
Proof. cbn [set_min set_max sc_min sc_max]. split; intros H; [now apply Q.min_r|now apply Q.max_r]. Qed.
(** The range at the start holds all values but those within a tenth of a millionth of the least. *)
Theorem C233_start values x : In x values -> (x <= sc_max (init_scale values))%Q /\ ((list_min values <= 0)%Q -> (sc_min (init_scale values) <= x)%Q) /\
  ((list_min values * (1 + (1 # 10000000)) <= x)%Q -> (sc_min (init_scale values) <= x)%Q).
Proof.
  intros I. pose proof (list_min_le values x I). pose proof (list_max_ge values x I). cbn [init_scale sc_min sc_max]. repeat split; intros; lra.
Qed.
(** C234: after the lower end is raised the isosurface may lie outside the range; and for data that are all the same
    positive number the range starts empty. *)
Theorem C234_range_refuted : (exists values l, let s := run_all l (init_scale values) in (sc_min (init_scale values) <= sc_max (init_scale values))%Q /\ (sc_iso s < sc_min s)%Q) /\
  (exists values, values <> [] /\ (sc_max (init_scale values) < sc_min (init_scale values))%Q).
Proof. split; [exists [0; 5]%Q, [SetMin 1%Q]; split; vm_compute; [discriminate|reflexivity]|]. exists [2; 2]%Q. split; [discriminate|vm_compute; reflexivity]. Qed.

(** C231: what is hidden lies below the isosurface when no value is negative. *)
Theorem C231_below values x : values <> [] -> (forall v, In v values -> 0 <= v)%Q -> (-1 < sc_iso (set_iso x (init_scale values)))%Q /\ (-1 < sc_iso (init_scale values))%Q.
Proof.
  intros N H. pose proof (list_min_ge values 0 N H) as M. cbn [set_iso init_scale sc_iso sc_min sc_max]. split; [|lra].
  apply Qlt_le_trans with (list_min values + (1 # 10000000) * list_min values)%Q; [lra|apply Q.le_max_l].
Qed.
(** C232: for other data it does not. *)
Theorem C232_hidden_refuted : exists (total : arr3 Q) (basins atoms : arr3 Z) x, let vals := grid_values 1 1 2 total in
  let s := set_iso x (init_scale vals) in exists p, nth_error (hidden_mask 1 1 2 basins atoms [0] []) p = Some true /\
  exists v, nth_error (shown_values vals (hidden_mask 1 1 2 basins atoms [0] [])) p = Some v /\ (sc_iso s < v)%Q.
Proof.
  exists (fun _ _ k => if k =? 0 then 5%Q else (-2)%Q), (fun _ _ k => k), (fun _ _ _ => 0), (- (3 # 2))%Q. exists 4%nat. split; [reflexivity|]. eexists. split; [reflexivity|]. vm_compute. reflexivity.
Qed.

(** ** Slices *)
(** The sphere of radius [r] about [center] and the plane share a point, for a normal of length near one. *)
Definition cuts (normal origin center : vec) (r : Q) : Prop := exists p, (vdot (vsub p origin) normal == 0)%Q /\ (norm2 (vsub p center) <= r * r)%Q.
Lemma cauchy a b : (vdot a b * vdot a b <= norm2 a * norm2 b)%Q.
Proof.
  destruct a as [[a1 a2] a3], b as [[b1 b2] b3]. cbn [vdot norm2]. pose proof (sq_nonneg (a1 * b2 - a2 * b1)). pose proof (sq_nonneg (a1 * b3 - a3 * b1)). pose proof (sq_nonneg (a2 * b3 - a3 * b2)). lra.
Qed.
(** C235: an atom whose drawn sphere, of radius 0.3 times its radius, is cut by the plane is drawn. *)
Theorem C235_cut normal origin center r : (0 <= r)%Q -> (norm2 normal <= 10)%Q -> cuts normal origin center ((3 # 10) * r) -> slice_atom normal origin center r = true.
Proof.
  intros R U (p & P & B). unfold slice_atom. apply Qle_bool_iff. set (d := vdot (vsub center origin) normal).
  assert (E : (d == - vdot (vsub p center) normal)%Q). { subst d. destruct p as [[p1 p2] p3], center as [[c1 c2] c3], origin as [[o1 o2] o3], normal as [[n1 n2] n3]. cbn [vdot vsub] in *. lra. }
  pose proof (cauchy (vsub p center) normal) as C. pose proof (norm2_nonneg (vsub p center)) as G. pose proof (norm2_nonneg normal) as G'. set (q := vdot (vsub p center) normal) in *. set (n := norm2 (vsub p center)) in *. set (n' := norm2 normal) in *. clearbody d q n n'. rewrite E, Qabs_opp.
  assert (S : (q * q <= r * r)%Q) by nra. apply Qabs_Qle_condition. split; apply Qnot_lt_le; intros X; nra.
Qed.
Theorem C235_near normal origin center r : slice_atom normal origin center r = true <-> (- r <= vdot (vsub center origin) normal <= r)%Q.
Proof. unfold slice_atom. rewrite Qle_bool_iff. apply Qabs_Qle_condition. Qed.
(** C236: atoms whose spheres are not cut are drawn too, and an atom is left out though the sphere of its image is cut. *)
Theorem C236_sliced_refuted : (exists normal origin center r, (0 < r)%Q /\ norm2 normal == 1 /\ slice_atom normal origin center r = true /\ ~ cuts normal origin center ((3 # 10) * r))%Q /\
  (exists normal origin m frac image r, (0 < r)%Q /\ In image (get_edge_atom_fracs (1 # 100) frac) /\ cuts normal origin (vmat image m) ((3 # 10) * r) /\ slice_atom normal origin (vmat frac m) r = false).
Proof.
  split.
  - exists (0, 0, 1)%Q, (0, 0, 0)%Q, (0, 0, 1 # 2)%Q, 1%Q. split; [reflexivity|]. split; [reflexivity|]. split; [reflexivity|]. intros ([[x y] z] & P & B). cbn [vdot vsub norm2] in P, B. pose proof (sq_nonneg (x - 0)). pose proof (sq_nonneg (y - 0)). assert (Z0 : (z == 0)%Q) by lra. rewrite Z0 in B. lra.
  - exists (0, 0, 1)%Q, (0, 0, 4)%Q, ((4, 0, 0), (0, 4, 0), (0, 0, 4))%Q, (1 # 2, 1 # 2, 0)%Q. eexists. exists 1%Q. split; [reflexivity|]. split; [right; left; reflexivity|]. split; [|reflexivity]. exists (2, 2, 4)%Q. split; [reflexivity|]. vm_compute. discriminate.
Qed.

(** ** Fitting the camera *)
Definition in_box (lo hi p : vec) : Prop := let '(a, b, c) := lo in let '(a', b', c') := hi in let '(x, y, z) := p in (a <= x <= a' /\ b <= y <= b' /\ c <= z <= c')%Q.
Definition middle (lo hi : vec) : vec := vmap (fun x => x / 2)%Q (vadd lo hi).
(** Seen from the middle of the box, a point lies within the height and the width of the picture. *)
Definition seen (lo hi direction up : vec) (aspect ps : Q) (p : vec) : Prop :=
  (Qabs (vdot (vsub p (middle lo hi)) up) <= ps /\ Qabs (vdot (vsub p (middle lo hi)) (mcross direction up)) <= ps * aspect)%Q.
(** C237: the box does not fit into what is seen when it is looked at along its diagonal. *)
Theorem C237_fits_refuted : exists lo hi direction up p, (norm2 direction == 1 /\ norm2 up == 1 /\ vdot direction up == 0)%Q /\ in_box lo hi p /\
  ~ seen lo hi direction up 1 (parallel_scale lo hi direction up 1 0) p.
Proof.
  exists (0, 0, 0)%Q, (3, 4, 1)%Q, (3 # 5, 4 # 5, 0)%Q, (0, 0, 1)%Q, (3, 0, 0)%Q. split; [repeat split; reflexivity|]. split; [cbn; repeat split; lra|]. intros [_ B]. vm_compute in B. now apply B.
Qed.
(** C238: it fits when the components of the vector that is up all have the same sign and those of the horizontal one. *)
Definition one_sign (v : vec) : Prop := let '(x, y, z) := v in (0 <= x /\ 0 <= y /\ 0 <= z)%Q \/ (x <= 0 /\ y <= 0 /\ z <= 0)%Q.
Lemma one_sign_fits lo hi u p : one_sign u -> in_box lo hi p -> (Qabs (vdot (vsub p (middle lo hi)) u) <= Qabs (vdot (vsub hi lo) u) / 2)%Q.
Proof.
  destruct lo as [[a b] c], hi as [[a' b'] c'], p as [[x y] z], u as [[u v] w]. cbn [one_sign in_box middle vmap vadd vsub vdot]. intros S (X & Y & Z).
  assert (K : forall l h q t, (l <= q <= h -> 0 <= t -> - ((h - l) * t) <= 2 * ((q - (l + h) / 2) * t) <= (h - l) * t)%Q).
  { intros l h q t [Q1 Q2] T. setoid_replace (2 * ((q - (l + h) / 2) * t))%Q with ((2 * q - l - h) * t)%Q by field. assert (A : (0 <= (q - l) * t)%Q) by (apply Qmult_le_0_compat; lra). assert (B : (0 <= (h - q) * t)%Q) by (apply Qmult_le_0_compat; lra). split; lra. }
  set (d := ((a' - a) * u + (b' - b) * v + (c' - c) * w)%Q). set (e := ((x - (a + a') / 2) * u + (y - (b + b') / 2) * v + (z - (c + c') / 2) * w)%Q).
  assert (G : (Qabs d == d /\ - d <= 2 * e <= d \/ Qabs d == - d /\ d <= 2 * e <= - d)%Q).
  { destruct S as [(S1 & S2 & S3)|(S1 & S2 & S3)].
    - left. pose proof (K a a' x u X S1). pose proof (K b b' y v Y S2). pose proof (K c c' z w Z S3). assert (D : (0 <= d)%Q) by (subst d; assert ((0 <= (a' - a) * u)%Q) by (apply Qmult_le_0_compat; lra); assert ((0 <= (b' - b) * v)%Q) by (apply Qmult_le_0_compat; lra); assert ((0 <= (c' - c) * w)%Q) by (apply Qmult_le_0_compat; lra); lra).
      split; [now apply Qabs_pos|]. subst d e. split; lra.
    - right. pose proof (K a a' x (- u)%Q X ltac:(lra)). pose proof (K b b' y (- v)%Q Y ltac:(lra)). pose proof (K c c' z (- w)%Q Z ltac:(lra)). assert (D : (d <= 0)%Q) by (subst d; assert ((0 <= (a' - a) * - u)%Q) by (apply Qmult_le_0_compat; lra); assert ((0 <= (b' - b) * - v)%Q) by (apply Qmult_le_0_compat; lra); assert ((0 <= (c' - c) * - w)%Q) by (apply Qmult_le_0_compat; lra); lra).
      split; [now apply Qabs_neg|]. subst d e. split; lra. }
  clearbody d e. unfold Qdiv. change (/ 2)%Q with (1 # 2)%Q. apply Qabs_Qle_condition. destruct G as [[-> G]|[-> G]]; lra.
Qed.
Theorem C238_fits lo hi direction up aspect p : (0 < aspect)%Q -> one_sign up -> one_sign (mcross direction up) -> in_box lo hi p ->
  seen lo hi direction up aspect (parallel_scale lo hi direction up aspect 0) p.
Proof.
  intros A S1 S2 B. unfold seen, parallel_scale. pose proof (one_sign_fits lo hi up p S1 B) as V. pose proof (one_sign_fits lo hi (mcross direction up) p S2 B) as H. set (v := Qabs (vdot (vsub hi lo) up)) in *. set (h := Qabs (vdot (vsub hi lo) (mcross direction up))) in *. clearbody v h.
  pose proof (Q.le_max_l (h / aspect) v) as M1. pose proof (Q.le_max_r (h / aspect) v) as M2. set (m := Qmax (h / aspect) v) in *. clearbody m. split.
  - apply Qle_trans with (v / 2)%Q; [exact V|]. unfold Qdiv. change (/ 2)%Q with (1 # 2)%Q. lra.
  - apply Qle_trans with (h / 2)%Q; [exact H|]. assert (X : (h <= m * aspect)%Q). { setoid_replace h with (h / aspect * aspect)%Q by (field; lra). apply Qmult_le_compat_r; lra. } unfold Qdiv. change (/ 2)%Q with (1 # 2)%Q. lra.
Qed.

(** ** The actors of the atoms *)
(** The scene shows what a new plot of the settings would show; with [vis] false, but for which atoms are seen. *)
Definition current (vis : bool) (s : scene) : Prop :=
  length (sc_radii s) = length (sc_actors s) /\ length (sc_colors s) = length (sc_actors s) /\
  forall i a d, nth_error (sc_actors s) i = Some a -> nth_error (drawn s) i = Some d ->
  (vis = true -> ac_visible a = ac_visible d) /\ (ac_radius a == ac_radius d)%Q /\ ac_color a = ac_color d.
Lemma nth_indexed {A} (l : list A) i : nth_error (indexed l) i = option_map (fun x => (i, x)) (nth_error l i).
Proof.
  unfold indexed. cut (forall k, nth_error (combine (seq k (length l)) l) i = option_map (fun x => ((k + i)%nat, x)) (nth_error l i)); [intros H; apply (H 0%nat)|]. revert i. induction l as [|x l IH]; intros [|i] k; try reflexivity; cbn; [now rewrite Nat.add_0_r|]. rewrite IH. now rewrite Nat.add_succ_r.
Qed.
Lemma nth_drawn s i r c : nth_error (sc_radii s) i = Some r -> nth_error (sc_colors s) i = Some c ->
  nth_error (drawn s) i = Some {| ac_visible := is_in (sc_visible s) i; ac_radius := r * (3 # 10); ac_color := c |}.
Proof. intros R C. unfold drawn. rewrite nth_error_map, nth_indexed, (nth_combine _ _ _ _ _ R C). reflexivity. Qed.
Lemma nth_some {A B} (l : list A) (r : list B) i x : length r = length l -> nth_error l i = Some x -> exists y, nth_error r i = Some y.
Proof. intros L E. destruct (nth_error r i) as [y|] eqn:F; [now exists y|]. apply nth_error_None in F. assert (i < length l)%nat by (apply nth_error_Some; congruence). lia. Qed.
Lemma indexed_length {A} (l : list A) : length (indexed l) = length l.
Proof. unfold indexed. rewrite combine_length, seq_length. lia. Qed.
Lemma is_in_spec l i : is_in l i = true <-> In i l.
Proof. unfold is_in. rewrite existsb_exists. split; [intros (y & Y & E); apply Nat.eqb_eq in E as ->; exact Y|intros I; exists i; split; [exact I|apply Nat.eqb_refl]]. Qed.

(** C239: setting the visible atoms and the colours keeps the scene current; setting the radii keeps the spheres and the
    colours current, and the visibility too when all atoms are visible. *)
Theorem C239_visible v s : current false s -> current true (set_visible v s).
Proof.
  intros (L1 & L2 & H). split; [|split]; cbn [set_visible sc_radii sc_colors sc_actors]; try (rewrite map_length, indexed_length; assumption).
  intros i a d E F. rewrite nth_error_map, nth_indexed in E. destruct (nth_error (sc_actors s) i) as [a0|] eqn:A; [|discriminate E]. injection E as <-.
  destruct (nth_some _ (sc_radii s) i a0 L1 A) as (r & R), (nth_some _ (sc_colors s) i a0 L2 A) as (c & C). specialize (H i a0 _ A (nth_drawn s i r c R C)) as (_ & H1 & H2). rewrite (nth_drawn (set_visible v s) i r c R C) in F. injection F as <-. cbn [ac_visible ac_radius ac_color sc_visible set_visible] in *. auto.
Qed.
Theorem C239_colors vis cs s : length cs = length (sc_actors s) -> current vis s -> current vis (set_colors cs s).
Proof.
  intros L (L1 & L2 & H). split; [|split]; cbn [set_colors sc_radii sc_colors sc_actors]; try (rewrite map_length, indexed_length; assumption).
  intros i a d E F. rewrite nth_error_map, nth_indexed in E. destruct (nth_error (sc_actors s) i) as [a0|] eqn:A; [|discriminate E]. cbn [option_map] in E.
  destruct (nth_some _ (sc_radii s) i a0 L1 A) as (r & R), (nth_some _ (sc_colors s) i a0 L2 A) as (c & C), (nth_some _ cs i a0 L A) as (c' & C'). specialize (H i a0 _ A (nth_drawn s i r c R C)) as (H0 & H1 & H2). rewrite (nth_drawn (set_colors cs s) i r c' R C') in F. injection F as <-. rewrite C, C' in E. cbn [ac_visible ac_radius ac_color sc_visible set_colors] in *. destruct (c =? c') eqn:Q; injection E as <-; cbn [ac_visible ac_radius ac_color]; [apply Z.eqb_eq in Q; rewrite <- Q|]; auto.
Qed.
Theorem C239_radii vis rs s : length rs = length (sc_actors s) -> current vis s -> (vis = true -> forall i, (i < length (sc_actors s))%nat -> In i (sc_visible s)) -> current vis (set_radii rs s).
Proof.
  intros L (L1 & L2 & H) V. split; [|split]; cbn [set_radii sc_radii sc_colors sc_actors]; try (rewrite map_length, indexed_length; try assumption).
  - unfold fix_radii. now rewrite map_length.
  - intros i a d E F. rewrite nth_error_map, nth_indexed in E. destruct (nth_error (sc_actors s) i) as [a0|] eqn:A; [|discriminate E]. cbn [option_map] in E.
    assert (L' : length (fix_radii rs) = length (sc_actors s)) by (unfold fix_radii; now rewrite map_length).
    destruct (nth_some _ (sc_radii s) i a0 L1 A) as (r & R), (nth_some _ (sc_colors s) i a0 L2 A) as (c & C), (nth_some _ (fix_radii rs) i a0 L' A) as (r' & R'). specialize (H i a0 _ A (nth_drawn s i r c R C)) as (H0 & H1 & H2). rewrite (nth_drawn (set_radii rs s) i r' c R' C) in F. injection F as <-. rewrite R, R', C in E. cbn [ac_visible ac_radius ac_color sc_visible set_radii] in *.
    destruct (Qeq_bool r r') eqn:Q; injection E as <-; cbn [ac_visible ac_radius ac_color].
    + apply Qeq_bool_iff in Q. rewrite <- Q. auto.
    + split; [|split; reflexivity]. intros W. symmetry. apply is_in_spec, V; [exact W|]. apply nth_error_Some. congruence.
Qed.
Theorem C239_start s : length (sc_colors s) = length (sc_radii s) -> sc_actors s = drawn s -> current true s.
Proof.
  intros L E. unfold current. rewrite E. assert (N : length (drawn s) = length (sc_radii s)) by (unfold drawn; rewrite map_length, indexed_length, combine_length; lia). rewrite N. split; [reflexivity|]. split; [exact L|]. intros i a d A D. rewrite A in D. injection D as <-. repeat split; auto.
Qed.
(** Radii that are not positive become 0.01, the others stay. *)
Theorem C239_positive rs s i r : nth_error rs i = Some r -> exists r', nth_error (sc_radii (set_radii rs s)) i = Some r' /\ (0 < r')%Q /\ ((0 < r)%Q -> r' = r) /\ ((r <= 0)%Q -> r' = (1 # 100)%Q).
Proof.
  intros E. cbn [set_radii sc_radii]. unfold fix_radii. rewrite nth_error_map, E. cbn [option_map]. eexists. split; [reflexivity|]. destruct (Qle_bool r 0) eqn:Q.
  - apply Qle_bool_iff in Q. split; [reflexivity|]. split; [lra|reflexivity].
  - assert (P : (0 < r)%Q) by (apply Qnot_le_lt; rewrite <- Qle_bool_iff; congruence). split; [exact P|]. split; [reflexivity|]. lra.
Qed.
(** The table that is set is the table that is read. *)
Theorem C239_table v c r s : length v = length (sc_actors s) -> (forall x, In x r -> 0 < x)%Q -> get_df (set_df (v, c, r) s) = (v, c, r).
Proof.
  intros L P. unfold get_df, set_df. cbn [set_radii set_colors set_visible sc_visible sc_colors sc_radii sc_actors]. rewrite !map_length, !indexed_length, !map_length, !indexed_length, map_length, indexed_length. f_equal; [f_equal|].
  - assert (X : forall i, is_in (map fst (filter (fun '(_, b) => b) (indexed v))) i = match nth_error v i with Some b => b | None => false end).
    { intros i. assert (Y : In i (map fst (filter (fun '(_, b) => b) (indexed v))) <-> nth_error v i = Some true).
      { rewrite in_map_iff. split.
        - intros ([n b] & <- & I). apply filter_In in I as [I B]. cbn [fst]. apply In_nth_error in I as (m & M). rewrite nth_indexed in M. destruct (nth_error v m) eqn:N; [|discriminate]. injection M as -> ->. congruence.
        - intros E. exists (i, true). split; [reflexivity|]. apply filter_In. split; [|reflexivity]. apply (nth_error_In _ i). rewrite nth_indexed, E. reflexivity. }
      destruct (nth_error v i) as [[|]|] eqn:E; [apply is_in_spec, Y; reflexivity| |]; apply not_true_iff_false; rewrite is_in_spec, Y; discriminate. }
    rewrite <- L. rewrite (map_ext _ _ X). clear. cut (forall u, map (fun i => match nth_error (u ++ v) i with Some b => b | None => false end) (seq (length u) (length v)) = v); [intros H; apply (H [])|].
    induction v as [|b v IH]; intros u; [reflexivity|]. cbn [length seq map]. rewrite nth_error_app2, Nat.sub_diag by lia. cbn [nth_error]. f_equal. specialize (IH (u ++ [b])). rewrite <- app_assoc, app_length, Nat.add_comm in IH. exact IH.
  - unfold fix_radii. rewrite <- (map_id r) at 2. apply map_ext_in. intros x X. specialize (P x X). destruct (Qle_bool x 0) eqn:Q; [apply Qle_bool_iff in Q; lra|reflexivity].
Qed.
(** C240: an atom that the table hides is seen when its radius changes with it. *)
Theorem C240_hidden_refuted : exists s df, current true s /\ exists i a, nth_error (fst (fst (get_df (set_df df s)))) i = Some false /\ nth_error (sc_actors (set_df df s)) i = Some a /\ ac_visible a = true.
Proof.
  exists {| sc_visible := [0%nat]; sc_radii := [1%Q]; sc_colors := [7]; sc_actors := [{| ac_visible := true; ac_radius := 1 * (3 # 10); ac_color := 7 |}] |}, ([false], [7], [2%Q]).
  split; [apply C239_start; reflexivity|]. exists 0%nat. eexists. repeat split; reflexivity.
Qed.
Example C239_ex : sc_actors (set_colors [1; 2] (set_visible [1%nat] {| sc_visible := [0; 1]%nat; sc_radii := [1; 2]%Q; sc_colors := [7; 2];
  sc_actors := drawn {| sc_visible := [0; 1]%nat; sc_radii := [1; 2]%Q; sc_colors := [7; 2]; sc_actors := [] |} |}))
  = [{| ac_visible := false; ac_radius := 1 * (3 # 10); ac_color := 1 |}; {| ac_visible := true; ac_radius := 2 * (3 # 10); ac_color := 2 |}].
Proof. reflexivity. Qed.
Example C230_ex : map Qred (grid_values 1 2 1 (fun _ j _ => inject_Z j)) = [0; 0; 1; 1; 0; 0; 0; 0; 1; 1; 0; 0]%Q /\ map (vmap Qred) (firstn 4 (grid_points 1 2 1 ((3, 0, 0), (0, 4, 0), (0, 0, 5))%Q)) = [(0, 0, 0); (3, 0, 0); (0, 2, 0); (3, 2, 0)]%Q.
Proof. split; reflexivity. Qed.
Example C231_ex : map Qred (shown_values (grid_values 1 2 1 (fun _ j _ => inject_Z j)) (hidden_mask 1 2 1 (fun _ j _ => j) (fun _ _ _ => 0) [1] [])) = [-1; -1; 1; 1; -1; -1; -1; -1; 1; 1; -1; -1]%Q /\ initial_basins [0; 2; 0] = [0; 2].
Proof. split; reflexivity. Qed.

Print Assumptions C227_images. Print Assumptions C227_once. Print Assumptions C228_camera. Print Assumptions C229_lines. Print Assumptions C230_aligned. Print Assumptions C230_length.
Print Assumptions C231_shown. Print Assumptions C231_initial. Print Assumptions C231_below. Print Assumptions C232_hidden_refuted. Print Assumptions C233_ordered. Print Assumptions C233_iso. Print Assumptions C233_taken. Print Assumptions C233_start.
Print Assumptions C234_range_refuted. Print Assumptions C235_cut. Print Assumptions C235_near. Print Assumptions C236_sliced_refuted. Print Assumptions C237_fits_refuted. Print Assumptions C238_fits.
Print Assumptions C239_visible. Print Assumptions C239_colors. Print Assumptions C239_radii. Print Assumptions C239_start. Print Assumptions C239_positive. Print Assumptions C239_table. Print Assumptions C240_hidden_refuted.
