From Verif Require Import Base GridModel NeighSpec NearModel NearSpec NearProofs InterpModel.
From Coq Require Import ZifyBool ZifyNat Lqa Qround Qabs Setoid.
Local Open Scope Z_scope.

Lemma floor_offset m t : (0 <= t < 1)%Q -> Qfloor (inject_Z m + t) = m.
Proof.
  intros H. pose proof (Qfloor_le (inject_Z m + t)) as A. pose proof (Qlt_floor (inject_Z m + t)) as B. rewrite inject_Z_plus in B. change (inject_Z 1) with 1%Q in B.
  assert ((inject_Z (Qfloor (inject_Z m + t)) < inject_Z (m + 1))%Q) by (rewrite inject_Z_plus; change (inject_Z 1) with 1%Q; lra).
  assert ((inject_Z m < inject_Z (Qfloor (inject_Z m + t) + 1))%Q) by (rewrite inject_Z_plus; change (inject_Z 1) with 1%Q; lra).
  rewrite <- !Zlt_Qlt in *. lia.
Qed.
Lemma floor_split x : exists m t, (x == inject_Z m + t)%Q /\ (0 <= t < 1)%Q /\ Qfloor x = m.
Proof.
  exists (Qfloor x), (x - inject_Z (Qfloor x))%Q. split; [ring|]. pose proof (Qfloor_le x). pose proof (Qlt_floor x) as B. rewrite inject_Z_plus in B. change (inject_Z 1) with 1%Q in B.
  split; [split; lra|reflexivity].
Qed.

(** ** One direction *)
Definition per (n : Z) (F : Z -> Q) (z : Z) : Q := F (z mod n).
Lemma per_add n F z s : n <> 0 -> per n F (z + s * n) = per n F z.
Proof. intros H. unfold per. now rewrite Z_mod_plus_full. Qed.

Definition lin1 (n : Z) (F : Z -> Q) (x : Q) : Q :=
  let r := Qfloor (wrapq x n) in let d := (wrapq x n - inject_Z r)%Q in ((1 - d) * F r + d * F ((r + 1) mod n)%Z)%Q.
Definition spl1 (n : Z) (F : Z -> Q) (x : Q) : Q :=
  let r := Qfloor x in let d := (x - inject_Z r)%Q in
  (bspline_weight 0 d * F ((r - 1) mod n) + bspline_weight 1 d * F (r mod n) + bspline_weight 2 d * F ((r + 1) mod n) + bspline_weight 3 d * F ((r + 2) mod n))%Q.

Lemma wrapq_comp x y n : (x == y -> wrapq x n == wrapq y n)%Q.
Proof.
  intros E. unfold wrapq. assert (Qle_bool (inject_Z n) x = Qle_bool (inject_Z n) y) as -> by (apply eq_true_iff_eq; rewrite !Qle_bool_iff; rewrite E; reflexivity).
  assert (Qltb x 0 = Qltb y 0) as -> by (apply eq_true_iff_eq; rewrite !Qltb_lt; rewrite E; reflexivity).
  destruct (Qle_bool _ _); [now rewrite E|]. destruct (Qltb _ _); now rewrite E.
Qed.
Global Instance wrapq_mor : Proper (Qeq ==> eq ==> Qeq) wrapq.
Proof. intros x y E n m <-. now apply wrapq_comp. Qed.
Global Instance lin1_mor n F : Proper (Qeq ==> Qeq) (lin1 n F).
Proof. intros x y E. unfold lin1. assert (K : Qfloor (wrapq x n) = Qfloor (wrapq y n)) by (apply Qfloor_comp; now rewrite E). rewrite K, E. reflexivity. Qed.
Global Instance bspline_mor : Proper (eq ==> Qeq ==> Qeq) bspline_weight.
Proof.
  intros o o' <- x y E. unfold bspline_weight. assert (A : (Qabs (inject_Z (o - 1) - x) == Qabs (inject_Z (o - 1) - y))%Q) by now rewrite E.
  assert (Qltb (Qabs (inject_Z (o - 1) - x)) 1 = Qltb (Qabs (inject_Z (o - 1) - y)) 1) as -> by (apply eq_true_iff_eq; rewrite !Qltb_lt; rewrite A; reflexivity).
  assert (Qltb (Qabs (inject_Z (o - 1) - x)) 2 = Qltb (Qabs (inject_Z (o - 1) - y)) 2) as -> by (apply eq_true_iff_eq; rewrite !Qltb_lt; rewrite A; reflexivity).
  destruct (Qltb _ 1); [now rewrite A|]. destruct (Qltb _ 2); [now rewrite A|reflexivity].
Qed.
Global Instance spl1_mor n F : Proper (Qeq ==> Qeq) (spl1 n F).
Proof. intros x y E. unfold spl1. rewrite (Qfloor_comp x y E). rewrite E. reflexivity. Qed.

Lemma lin1_open n F m t : 0 < n -> (0 <= t < 1)%Q -> - n <= m < 2 * n ->
  (lin1 n F (inject_Z m + t) == (1 - t) * per n F m + t * per n F (m + 1))%Q.
Proof.
  intros Hn Ht Hm. set (x := (inject_Z m + t)%Q).
  assert (W : exists s, (wrapq x n == inject_Z (m + s * n) + t)%Q /\ 0 <= m + s * n < n).
  { unfold wrapq. destruct (Qle_bool (inject_Z n) x) eqn:E1.
    - apply Qle_bool_iff in E1. exists (-1). assert (n <= m).
      { destruct (Z_lt_le_dec m n) as [L|L]; [|exact L]. exfalso. assert (inject_Z (m + 1) <= inject_Z n)%Q by (rewrite <- Zle_Qle; lia). rewrite inject_Z_plus in *. change (inject_Z 1) with 1%Q in *. unfold x in E1. lra. }
      split; [|lia]. unfold x. replace (m + -1 * n) with (m - n) by lia. unfold Zminus. rewrite inject_Z_plus, inject_Z_opp. ring.
    - assert (N : ~ (inject_Z n <= x)%Q) by (intros H; apply Qle_bool_iff in H; congruence). apply Qnot_le_lt in N.
      assert (m < n) by (rewrite Zlt_Qlt; unfold x in N; lra).
      destruct (Qltb x 0) eqn:E2.
      + apply Qltb_lt in E2. assert (m < 0) by (rewrite Zlt_Qlt; unfold x in E2; change (inject_Z 0) with 0%Q; lra). exists 1. split; [|lia].
        unfold x. replace (m + 1 * n) with (m + n) by lia. rewrite inject_Z_plus. ring.
      + apply Qltb_ge in E2. exists 0. split; [unfold x; now rewrite Z.add_0_r|].
        assert (0 <= m). { destruct (Z_lt_le_dec m 0) as [L|L]; [|exact L]. exfalso. assert (inject_Z (m + 1) <= inject_Z 0)%Q by (rewrite <- Zle_Qle; lia). rewrite inject_Z_plus in *. change (inject_Z 1) with 1%Q in *. change (inject_Z 0) with 0%Q in *. unfold x in E2. lra. }
        lia. }
  destruct W as (s & W & R). unfold lin1. assert (FL : Qfloor (wrapq x n) = m + s * n) by (rewrite (Qfloor_comp _ _ W); now apply floor_offset).
  rewrite FL, W. assert (E1 : F (m + s * n) = per n F m) by (unfold per; f_equal; rewrite <- (Z_mod_plus_full m s n), Z.mod_small; lia).
  assert (E2 : F ((m + s * n + 1) mod n) = per n F (m + 1)) by (unfold per; f_equal; replace (m + s * n + 1) with (m + 1 + s * n) by lia; apply Z_mod_plus_full).
  rewrite E1, E2. ring.
Qed.
Lemma lin1_closed n F m t : 0 < n -> (0 <= t <= 1)%Q -> (- inject_Z n <= inject_Z m + t)%Q -> (inject_Z m + t < 2 * inject_Z n)%Q ->
  (lin1 n F (inject_Z m + t) == (1 - t) * per n F m + t * per n F (m + 1))%Q.
Proof.
  intros Hn Ht Hl Hr. destruct (Qeq_dec t 1) as [E|E].
  - rewrite E in *. assert (E2 : (inject_Z m + 1 == inject_Z (m + 1) + 0)%Q) by (rewrite inject_Z_plus; change (inject_Z 1) with 1%Q; ring).
    rewrite E2, lin1_open; [ring|exact Hn|lra|]. split.
    + rewrite Zle_Qle, inject_Z_plus, inject_Z_opp. change (inject_Z 1) with 1%Q. lra.
    + rewrite Zlt_Qlt, inject_Z_plus, inject_Z_mult. change (inject_Z 1) with 1%Q. change (inject_Z 2) with 2%Q. lra.
  - apply lin1_open; [exact Hn|split; [lra|]|].
    + destruct (Qlt_le_dec t 1) as [L|L]; [exact L|]. exfalso. apply E. lra.
    + assert (T : (t < 1)%Q) by (destruct (Qlt_le_dec t 1) as [L|L]; [exact L|exfalso; apply E; lra]). split.
      * assert (- n < m + 1). { rewrite Zlt_Qlt, inject_Z_plus, inject_Z_opp. change (inject_Z 1) with 1%Q. lra. } lia.
      * rewrite Zlt_Qlt, inject_Z_mult. change (inject_Z 2) with 2%Q. lra.
Qed.

(** The weights of uniform cubic B-splines. *)
Lemma Qltb_true a b : (a < b)%Q -> Qltb a b = true.
Proof. apply Qltb_lt. Qed.
Lemma Qltb_false a b : (b <= a)%Q -> Qltb a b = false.
Proof. apply Qltb_ge. Qed.
Lemma weights_val d : (0 <= d <= 1)%Q ->
  (bspline_weight 0 d == (1 - d) * (1 - d) * (1 - d) / 6)%Q /\
  (bspline_weight 1 d == (4 - 6 * d * d + 3 * d * d * d) / 6)%Q /\
  (bspline_weight 2 d == (1 + 3 * d + 3 * d * d - 3 * d * d * d) / 6)%Q /\
  (bspline_weight 3 d == d * d * d / 6)%Q.
Proof.
  intros H. unfold bspline_weight. cbn zeta.
  change (inject_Z (0 - 1)) with (-(1))%Q. change (inject_Z (1 - 1)) with 0%Q. change (inject_Z (2 - 1)) with 1%Q. change (inject_Z (3 - 1)) with 2%Q.
  assert (A0 : (Qabs (-(1) - d) == 1 + d)%Q) by (rewrite Qabs_neg by lra; ring).
  assert (A1 : (Qabs (0 - d) == d)%Q) by (rewrite Qabs_neg by lra; ring).
  assert (A2 : (Qabs (1 - d) == 1 - d)%Q) by (rewrite Qabs_pos by lra; ring).
  assert (A3 : (Qabs (2 - d) == 2 - d)%Q) by (rewrite Qabs_pos by lra; ring).
  generalize dependent (Qabs (-(1) - d)%Q). generalize dependent (Qabs (0 - d)%Q). generalize dependent (Qabs (1 - d)%Q). generalize dependent (Qabs (2 - d)%Q).
  intros a3 A3 a2 A2 a1 A1 a0 A0.
  repeat split.
  - rewrite Qltb_false by lra. destruct (Qltb a0 2) eqn:E; [apply Qltb_lt in E; rewrite A0; field|apply Qltb_ge in E]. assert (D : (d == 1)%Q) by lra. rewrite D. reflexivity.
  - destruct (Qltb a1 1) eqn:E; [rewrite A1; reflexivity|apply Qltb_ge in E]. rewrite Qltb_true by lra. assert (D : (d == 1)%Q) by lra. rewrite A1, D. reflexivity.
  - destruct (Qltb a2 1) eqn:E; [rewrite A2; field|apply Qltb_ge in E]. rewrite Qltb_true by lra. assert (D : (d == 0)%Q) by lra. rewrite A2, D. reflexivity.
  - destruct (Qltb a3 1) eqn:E; [apply Qltb_lt in E|apply Qltb_ge in E].
    + exfalso. lra.
    + destruct (Qltb a3 2) eqn:E2; [rewrite A3; field|apply Qltb_ge in E2]. assert (D : (d == 0)%Q) by lra. rewrite D. reflexivity.
Qed.
Lemma weights_nonneg d o : (0 <= d <= 1)%Q -> In o offs4 -> (0 <= bspline_weight o d)%Q.
Proof.
  intros H Ho. assert (C : forall x, (0 <= x -> 0 <= x * x * x)%Q) by (intros x Hx; apply Qmult_le_0_compat; [apply Qmult_le_0_compat|]; exact Hx).
  destruct (weights_val d H) as (A & B & D & E). cbn in Ho. destruct Ho as [<-|[<-|[<-|[<-|[]]]]].
  - rewrite A. pose proof (C (1 - d)%Q ltac:(lra)). apply Qle_shift_div_l; lra.
  - rewrite B. apply Qle_shift_div_l; [lra|]. assert ((d * d <= 1)%Q) by nra. assert ((d * d * (2 - d) <= 1 * (2 - d))%Q) by nra. nra.
  - rewrite D. apply Qle_shift_div_l; [lra|]. assert ((0 <= d * d)%Q) by nra. assert ((0 <= d * d * (1 - d))%Q) by nra. nra.
  - rewrite E. pose proof (C d ltac:(lra)). apply Qle_shift_div_l; lra.
Qed.

Lemma spl1_open n F m t : 0 < n -> (0 <= t < 1)%Q ->
  (spl1 n F (inject_Z m + t) == bspline_weight 0 t * per n F (m - 1) + bspline_weight 1 t * per n F m + bspline_weight 2 t * per n F (m + 1) + bspline_weight 3 t * per n F (m + 2))%Q.
Proof.
  intros Hn Ht. unfold spl1. rewrite (floor_offset m t Ht). assert (E : (inject_Z m + t - inject_Z m == t)%Q) by ring. rewrite E. reflexivity.
Qed.
Lemma spl1_closed n F m t : 0 < n -> (0 <= t <= 1)%Q ->
  (spl1 n F (inject_Z m + t) == bspline_weight 0 t * per n F (m - 1) + bspline_weight 1 t * per n F m + bspline_weight 2 t * per n F (m + 1) + bspline_weight 3 t * per n F (m + 2))%Q.
Proof.
  intros Hn Ht. destruct (Qlt_le_dec t 1) as [L|L]; [apply spl1_open; auto; lra|].
  assert (E : (t == 1)%Q) by lra. assert (E2 : (inject_Z m + t == inject_Z (m + 1) + 0)%Q) by (rewrite E, inject_Z_plus; change (inject_Z 1) with 1%Q; ring).
  rewrite E2, spl1_open by (auto; lra). rewrite E. replace (m + 1 - 1) with m by lia. replace (m + 1 + 1) with (m + 2) by lia. replace (m + 1 + 2) with (m + 3) by lia.
  destruct (weights_val 1 ltac:(lra)) as (A0 & A1 & A2 & A3). destruct (weights_val 0 ltac:(lra)) as (B0 & B1 & B2 & B3).
  revert A0 A1 A2 A3 B0 B1 B2 B3. generalize (bspline_weight 0 1), (bspline_weight 1 1), (bspline_weight 2 1), (bspline_weight 3 1), (bspline_weight 0 0), (bspline_weight 1 0), (bspline_weight 2 0), (bspline_weight 3 0).
  generalize (per n F m), (per n F (m + 1)), (per n F (m + 2)), (per n F (m + 3)), (per n F (m - 1)). intros f0 f1 f2 f3 f4 a0 a1 a2 a3 b0 b1 b2 b3 A0 A1 A2 A3 B0 B1 B2 B3.
  etransitivity; [repeat apply Qplus_comp; (apply Qmult_comp; [eassumption|reflexivity])|]. symmetry.
  etransitivity; [repeat apply Qplus_comp; (apply Qmult_comp; [eassumption|reflexivity])|]. field.
Qed.

Lemma avg2 lo hi t a b : (0 <= t <= 1 -> lo <= a <= hi -> lo <= b <= hi -> lo <= (1 - t) * a + t * b <= hi)%Q.
Proof. intros T A B. split; nra. Qed.
Lemma avg4 lo hi t a b c d : (0 <= t <= 1 -> lo <= a <= hi -> lo <= b <= hi -> lo <= c <= hi -> lo <= d <= hi ->
  lo <= bspline_weight 0 t * a + bspline_weight 1 t * b + bspline_weight 2 t * c + bspline_weight 3 t * d <= hi)%Q.
Proof.
  intros T A B C D.
  pose proof (weights_nonneg t 0 T ltac:(cbn; auto)) as W0. pose proof (weights_nonneg t 1 T ltac:(cbn; auto)) as W1.
  pose proof (weights_nonneg t 2 T ltac:(cbn; auto)) as W2. pose proof (weights_nonneg t 3 T ltac:(cbn; auto)) as W3.
  assert (S : (bspline_weight 0 t + bspline_weight 1 t + bspline_weight 2 t + bspline_weight 3 t == 1)%Q).
  { destruct (weights_val t T) as (A0 & A1 & A2 & A3). revert A0 A1 A2 A3. generalize (bspline_weight 0 t), (bspline_weight 1 t), (bspline_weight 2 t), (bspline_weight 3 t). intros w0 w1 w2 w3 A0 A1 A2 A3. etransitivity; [repeat apply Qplus_comp; eassumption|]. field. }
  revert W0 W1 W2 W3 S. generalize (bspline_weight 0 t), (bspline_weight 1 t), (bspline_weight 2 t), (bspline_weight 3 t). intros w0 w1 w2 w3 W0 W1 W2 W3 S.
  assert (M : forall w x y, (0 <= w -> x <= y -> w * x <= w * y)%Q) by (intros w x y Hw Hx; rewrite !(Qmult_comm w); apply Qmult_le_compat_r; assumption).
  pose proof (M w0 lo a W0 ltac:(lra)). pose proof (M w1 lo b W1 ltac:(lra)). pose proof (M w2 lo c W2 ltac:(lra)). pose proof (M w3 lo d W3 ltac:(lra)).
  pose proof (M w0 a hi W0 ltac:(lra)). pose proof (M w1 b hi W1 ltac:(lra)). pose proof (M w2 c hi W2 ltac:(lra)). pose proof (M w3 d hi W3 ltac:(lra)).
  assert (L : (w0 * lo + w1 * lo + w2 * lo + w3 * lo == lo)%Q) by (transitivity ((w0 + w1 + w2 + w3) * lo)%Q; [ring|rewrite S; ring]).
  assert (R : (w0 * hi + w1 * hi + w2 * hi + w3 * hi == hi)%Q) by (transitivity ((w0 + w1 + w2 + w3) * hi)%Q; [ring|rewrite S; ring]).
  split; lra.
Qed.

(** ** Three directions *)
Section Three.
Variables nx ny nz : Z.
Hypothesis Hx : 0 < nx.
Hypothesis Hy : 0 < ny.
Hypothesis Hz : 0 < nz.
Variable data : arr3 Q.

Lemma linear_nested i j k fr : (interp_linear nx ny nz data i j k fr ==
  lin1 nx (fun a => lin1 ny (fun b => lin1 nz (fun c => data a b c) (to_voxel fr k nz)) (to_voxel fr j ny)) (to_voxel fr i nx))%Q.
Proof. unfold interp_linear, lin1. ring. Qed.
Lemma spline_nested i j k fr : (interp_spline nx ny nz data i j k fr ==
  spl1 ny (fun b => spl1 nz (fun c => spl1 nx (fun a => data a b c) (to_voxel fr i nx)) (to_voxel fr k nz)) (to_voxel fr j ny))%Q.
Proof.
  unfold interp_spline. generalize (to_voxel fr i nx), (to_voxel fr j ny), (to_voxel fr k nz). intros x y z. cbn zeta.
  set (T := fun joff koff => fold_left (fun s ioff => (s + bspline_weight ioff (x - inject_Z (Qfloor x)) * data ((Qfloor x - 1 + ioff) mod nx)%Z ((Qfloor y - 1 + joff) mod ny)%Z ((Qfloor z - 1 + koff) mod nz)%Z)%Q) offs4 0%Q).
  transitivity (fold_left (fun val joff => fold_left (fun val koff => (val + bspline_weight joff (y - inject_Z (Qfloor y)) * bspline_weight koff (z - inject_Z (Qfloor z)) * T joff koff)%Q) offs4 val) offs4 0%Q); [reflexivity|].
  assert (ET : forall joff koff, (T joff koff == spl1 nx (fun a => data a ((Qfloor y - 1 + joff) mod ny)%Z ((Qfloor z - 1 + koff) mod nz)%Z) x)%Q).
  { intros joff koff. unfold T, spl1, offs4. cbn [fold_left].
    replace (Qfloor x - 1 + 0) with (Qfloor x - 1) by lia. replace (Qfloor x - 1 + 1) with (Qfloor x) by lia.
    replace (Qfloor x - 1 + 2) with (Qfloor x + 1) by lia. replace (Qfloor x - 1 + 3) with (Qfloor x + 2) by lia. ring. }
  clearbody T. assert (ES : forall joff koff w v, (v * w * T joff koff == v * w * spl1 nx (fun a => data a ((Qfloor y - 1 + joff) mod ny)%Z ((Qfloor z - 1 + koff) mod nz)%Z) x)%Q)
    by (intros; now rewrite ET). clear ET.
  unfold spl1 at 1 2. unfold offs4. cbn [fold_left].
  generalize (bspline_weight 0 (y - inject_Z (Qfloor y))), (bspline_weight 1 (y - inject_Z (Qfloor y))), (bspline_weight 2 (y - inject_Z (Qfloor y))), (bspline_weight 3 (y - inject_Z (Qfloor y))).
  generalize (bspline_weight 0 (z - inject_Z (Qfloor z))), (bspline_weight 1 (z - inject_Z (Qfloor z))), (bspline_weight 2 (z - inject_Z (Qfloor z))), (bspline_weight 3 (z - inject_Z (Qfloor z))).
  intros v0 v1 v2 v3 u0 u1 u2 u3.
  etransitivity.
  { repeat apply Qplus_comp; try apply ES. reflexivity. }
  replace (Qfloor y - 1 + 0) with (Qfloor y - 1) by lia. replace (Qfloor y - 1 + 1) with (Qfloor y) by lia.
  replace (Qfloor y - 1 + 2) with (Qfloor y + 1) by lia. replace (Qfloor y - 1 + 3) with (Qfloor y + 2) by lia.
  replace (Qfloor z - 1 + 0) with (Qfloor z - 1) by lia. replace (Qfloor z - 1 + 1) with (Qfloor z) by lia.
  replace (Qfloor z - 1 + 2) with (Qfloor z + 1) by lia. replace (Qfloor z - 1 + 3) with (Qfloor z + 2) by lia.
  generalize (fun b c => spl1 nx (fun a => data a b c) x). intros U.
  ring.
Qed.
Lemma lin1_ext n F G x : (forall z, F z == G z)%Q -> (lin1 n F x == lin1 n G x)%Q.
Proof. intros H. unfold lin1. apply Qplus_comp; (apply Qmult_comp; [reflexivity|apply H]). Qed.
Lemma spl1_ext n F G x : (forall z, F z == G z)%Q -> (spl1 n F x == spl1 n G x)%Q.
Proof. intros H. unfold spl1. repeat apply Qplus_comp; (apply Qmult_comp; [reflexivity|apply H]). Qed.

Notation win m t n := (- inject_Z n <= inject_Z m + t /\ inject_Z m + t < 2 * inject_Z n)%Q.
Definition w2 (a : Z) (t : Q) : Q := if a =? 0 then (1 - t)%Q else t.
Definition corners8 : list (Z * Z * Z) := [(0,0,0); (0,0,1); (0,1,0); (0,1,1); (1,0,0); (1,0,1); (1,1,0); (1,1,1)].

Theorem linear_correct (a b c : Z) (ta tb tc : Q) : (0 <= ta <= 1 -> 0 <= tb <= 1 -> 0 <= tc <= 1 -> win a ta nx -> win b tb ny -> win c tc nz ->
  interp_linear nx ny nz data (inject_Z a + ta) (inject_Z b + tb) (inject_Z c + tc) false ==
  qsum (map (fun o : Z * Z * Z => w2 (fst (fst o)) ta * w2 (snd (fst o)) tb * w2 (snd o) tc *
    data ((a + fst (fst o)) mod nx)%Z ((b + snd (fst o)) mod ny)%Z ((c + snd o) mod nz)%Z) corners8))%Q.
Proof.
  intros Ta Tb Tc [Wa Wa'] [Wb Wb'] [Wc Wc']. rewrite linear_nested. cbn [to_voxel].
  etransitivity.
  { apply lin1_ext. intros u. apply lin1_ext. intros v. apply (lin1_closed nz _ c tc Hz Tc Wc Wc'). }
  etransitivity.
  { apply lin1_ext. intros u. apply (lin1_closed ny _ b tb Hy Tb Wb Wb'). }
  rewrite (lin1_closed nx _ a ta Hx Ta Wa Wa'). unfold per, corners8, w2. cbn [map fst snd qsum fold_right Z.eqb]. rewrite !Z.add_0_r. ring.
Qed.

Lemma lin1_bounds n F x lo hi : 0 < n -> (- inject_Z n <= x)%Q -> (x < 2 * inject_Z n)%Q ->
  (forall z, 0 <= z < n -> (z = Qfloor x mod n \/ z = (Qfloor x + 1) mod n) -> (lo <= F z <= hi)%Q) -> (lo <= lin1 n F x <= hi)%Q.
Proof.
  intros Hn L R H. destruct (floor_split x) as (m & t & E & T & FL). rewrite E in L, R |- *. rewrite (lin1_closed n F m t Hn ltac:(lra) L R).
  rewrite FL in H. apply avg2; [lra|apply H; [apply Z.mod_pos_bound; lia|auto]|apply H; [apply Z.mod_pos_bound; lia|auto]].
Qed.
Lemma spl1_bounds n F x lo hi : 0 < n -> (forall z, 0 <= z < n -> (lo <= F z <= hi)%Q) -> (lo <= spl1 n F x <= hi)%Q.
Proof.
  intros Hn H. destruct (floor_split x) as (m & t & E & T & FL). rewrite E. rewrite (spl1_closed n F m t Hn ltac:(lra)).
  apply avg4; [lra|..]; apply H, Z.mod_pos_bound; lia.
Qed.
Theorem linear_bounded i j k lo hi :
  (- inject_Z nx <= i < 2 * inject_Z nx)%Q -> (- inject_Z ny <= j < 2 * inject_Z ny)%Q -> (- inject_Z nz <= k < 2 * inject_Z nz)%Q ->
  (forall a b c, (a = Qfloor i mod nx \/ a = (Qfloor i + 1) mod nx) -> (b = Qfloor j mod ny \/ b = (Qfloor j + 1) mod ny) ->
    (c = Qfloor k mod nz \/ c = (Qfloor k + 1) mod nz) -> (lo <= data a b c <= hi)%Q) ->
  (lo <= interp_linear nx ny nz data i j k false <= hi)%Q.
Proof.
  intros [Ia Ib] [Ja Jb] [Ka Kb] H. rewrite linear_nested. cbn [to_voxel].
  apply lin1_bounds; auto. intros a _ A. apply lin1_bounds; auto. intros b _ B. apply lin1_bounds; auto.
Qed.
Theorem spline_bounded i j k fr lo hi :
  (forall a b c, 0 <= a < nx -> 0 <= b < ny -> 0 <= c < nz -> (lo <= data a b c <= hi)%Q) ->
  (lo <= interp_spline nx ny nz data i j k fr <= hi)%Q.
Proof. intros H. rewrite spline_nested. apply spl1_bounds; auto. intros. apply spl1_bounds; auto. intros. apply spl1_bounds; auto. Qed.

Lemma spl1_sum n F m t : 0 < n -> (0 <= t <= 1)%Q ->
  (spl1 n F (inject_Z m + t) == qsum (map (fun o => bspline_weight o t * F ((m - 1 + o) mod n)%Z) offs4))%Q.
Proof.
  intros Hn Ht. rewrite spl1_closed by assumption. unfold per, offs4. cbn [map qsum fold_right].
  replace (m - 1 + 0) with (m - 1) by lia. replace (m - 1 + 1) with m by lia. replace (m - 1 + 2) with (m + 1) by lia. replace (m - 1 + 3) with (m + 2) by lia. ring.
Qed.
Theorem spline_correct (a b c : Z) (ta tb tc : Q) : (0 <= ta <= 1 -> 0 <= tb <= 1 -> 0 <= tc <= 1 ->
  interp_spline nx ny nz data (inject_Z a + ta) (inject_Z b + tb) (inject_Z c + tc) false ==
  qsum (map (fun y => bspline_weight y tb * qsum (map (fun z => bspline_weight z tc * qsum (map (fun x => bspline_weight x ta *
    data ((a - 1 + x) mod nx)%Z ((b - 1 + y) mod ny)%Z ((c - 1 + z) mod nz)%Z) offs4)) offs4)) offs4))%Q.
Proof.
  intros Ta Tb Tc. rewrite spline_nested. cbn [to_voxel]. rewrite (spl1_sum ny _ b tb Hy Tb). apply qsum_map_ext. intros y _.
  rewrite (spl1_sum nz _ c tc Hz Tc). apply Qmult_comp; [reflexivity|]. apply qsum_map_ext. intros z _.
  rewrite (spl1_sum nx _ a ta Hx Ta). reflexivity.
Qed.

Lemma spl1_periodic n F x s : 0 < n -> (spl1 n F (x + inject_Z (s * n)) == spl1 n F x)%Q.
Proof.
  intros Hn. destruct (floor_split x) as (m & t & E & T & FL). rewrite E.
  assert (E2 : (inject_Z m + t + inject_Z (s * n) == inject_Z (m + s * n) + t)%Q) by (rewrite (inject_Z_plus m); ring). rewrite E2.
  rewrite !spl1_open by (auto; lra). rewrite per_add by lia.
  replace (m + s * n - 1) with (m - 1 + s * n) by lia. replace (m + s * n + 1) with (m + 1 + s * n) by lia. replace (m + s * n + 2) with (m + 2 + s * n) by lia.
  rewrite !per_add by lia. reflexivity.
Qed.
Theorem spline_periodic (i j k : Q) (a b c : Z) (fr : bool) :
  (interp_spline nx ny nz data (i + inject_Z (if fr then a else a * nx)) (j + inject_Z (if fr then b else b * ny)) (k + inject_Z (if fr then c else c * nz)) fr
    == interp_spline nx ny nz data i j k fr)%Q.
Proof.
  rewrite !spline_nested. assert (V : forall x s n, (to_voxel fr (x + inject_Z (if fr then s else s * n)) n == to_voxel fr x n + inject_Z (s * n))%Q).
  { intros x s n. destruct fr; cbn; [rewrite inject_Z_mult; ring|reflexivity]. }
  etransitivity; [apply spl1_mor, V|]. etransitivity; [now apply spl1_periodic|]. apply spl1_ext. intros u.
  etransitivity; [apply spl1_mor, V|]. etransitivity; [now apply spl1_periodic|]. apply spl1_ext. intros v.
  etransitivity; [apply spl1_mor, V|]. now apply spl1_periodic.
Qed.
Lemma lin1_periodic n F x s : 0 < n -> (- inject_Z n <= x < 2 * inject_Z n)%Q -> (- inject_Z n <= x + inject_Z (s * n) < 2 * inject_Z n)%Q ->
  (lin1 n F (x + inject_Z (s * n)) == lin1 n F x)%Q.
Proof.
  intros Hn [L R] [L' R']. destruct (floor_split x) as (m & t & E & T & FL). rewrite E in *.
  assert (E2 : (inject_Z m + t + inject_Z (s * n) == inject_Z (m + s * n) + t)%Q) by (rewrite (inject_Z_plus m); ring). rewrite E2 in *.
  rewrite !lin1_closed by (auto; lra). rewrite per_add by lia. replace (m + s * n + 1) with (m + 1 + s * n) by lia. rewrite per_add by lia. reflexivity.
Qed.
Theorem linear_periodic (i j k : Q) (a b c : Z) (fr : bool) :
  let u := fun n : Z => if fr then 1%Q else inject_Z n in
  let v := fun s n : Z => inject_Z (if fr then s else s * n) in
  (- u nx <= i < 2 * u nx)%Q -> (- u ny <= j < 2 * u ny)%Q -> (- u nz <= k < 2 * u nz)%Q ->
  (- u nx <= i + v a nx < 2 * u nx)%Q -> (- u ny <= j + v b ny < 2 * u ny)%Q -> (- u nz <= k + v c nz < 2 * u nz)%Q ->
  (interp_linear nx ny nz data (i + v a nx) (j + v b ny) (k + v c nz) fr == interp_linear nx ny nz data i j k fr)%Q.
Proof.
  intros u v A1 A2 A3 B1 B2 B3. rewrite !linear_nested.
  assert (V : forall x s n, (to_voxel fr (x + v s n) n == to_voxel fr x n + inject_Z (s * n))%Q).
  { intros x s n. unfold v. destruct fr; cbn; [rewrite inject_Z_mult; ring|reflexivity]. }
  assert (W : forall x n, 0 < n -> (- u n <= x < 2 * u n)%Q -> (- inject_Z n <= to_voxel fr x n < 2 * inject_Z n)%Q).
  { intros x n Hn [L R]. unfold u in L, R. assert (0 < inject_Z n)%Q by (change 0%Q with (inject_Z 0); now rewrite <- Zlt_Qlt). destruct fr; cbn; [split; nra|split; lra]. }
  assert (P : forall n F x s, 0 < n -> (- u n <= x < 2 * u n)%Q -> (- u n <= x + v s n < 2 * u n)%Q -> (lin1 n F (to_voxel fr (x + v s n) n) == lin1 n F (to_voxel fr x n))%Q).
  { intros n F x s Hn A B. etransitivity; [apply lin1_mor, V|]. apply lin1_periodic; [exact Hn|now apply W|]. pose proof (V x s n) as E. pose proof (W _ n Hn B) as [L R]. split; lra. }
  etransitivity; [now apply P|]. apply lin1_ext. intros x. etransitivity; [now apply P|]. apply lin1_ext. intros y. now apply P.
Qed.
End Three.

(** ** Nearest point, sets of points and slices *)
Lemma py_round_shift q s : ~ (q - inject_Z (Qfloor q) == 1 # 2)%Q -> py_round (q + inject_Z s) = py_round q + s.
Proof.
  intros H. unfold py_round. assert (F : Qfloor (q + inject_Z s) = Qfloor q + s).
  { pose proof (floor_split q) as (m & t & E & T & <-). rewrite (Qfloor_comp (q + inject_Z s) (inject_Z (Qfloor q + s) + t)); [now apply floor_offset|]. rewrite E at 1. rewrite inject_Z_plus. ring. }
  rewrite F. cbn zeta. assert (E : (q + inject_Z s - inject_Z (Qfloor q + s) == q - inject_Z (Qfloor q))%Q) by (rewrite inject_Z_plus; ring).
  assert (L1 : Qltb (q + inject_Z s - inject_Z (Qfloor q + s)) (1 # 2) = Qltb (q - inject_Z (Qfloor q)) (1 # 2)) by (apply eq_true_iff_eq; rewrite !Qltb_lt, E; reflexivity).
  assert (L2 : Qltb (1 # 2) (q + inject_Z s - inject_Z (Qfloor q + s)) = Qltb (1 # 2) (q - inject_Z (Qfloor q))) by (apply eq_true_iff_eq; rewrite !Qltb_lt, E; reflexivity).
  rewrite L1, L2. destruct (Qltb (q - inject_Z (Qfloor q)) (1 # 2)) eqn:A; [reflexivity|]. destruct (Qltb (1 # 2) (q - inject_Z (Qfloor q))) eqn:B; [lia|].
  apply Qltb_ge in A, B. exfalso. apply H. lra.
Qed.
Lemma py_round_comp p q : (p == q)%Q -> py_round p = py_round q.
Proof. intros E. exact (nearest_even_fun _ _ _ _ E (py_round_spec p) (py_round_spec q)). Qed.
Lemma nearest_periodic nx ny nz data (i j k : Q) (a b c : Z) : 0 < nx -> 0 < ny -> 0 < nz ->
  let half := fun q => (q - inject_Z (Qfloor q) == 1 # 2)%Q in ~ half i -> ~ half j -> ~ half k ->
  interp_nearest nx ny nz data (i + inject_Z (a * nx)) (j + inject_Z (b * ny)) (k + inject_Z (c * nz)) false = interp_nearest nx ny nz data i j k false.
Proof. intros Hx Hy Hz half A B C. unfold interp_nearest. cbn [to_voxel]. rewrite !py_round_shift by assumption. now rewrite !Z_mod_plus_full. Qed.

Lemma points_correct points m nx ny nz data fr order empty : length empty = length points ->
  (forall t, (t < length points)%nat -> In t order) ->
  interpolate_points points m nx ny nz data fr order empty = map (fun p => interpolate m nx ny nz data p fr) points.
Proof.
  intros L H. unfold interpolate_points. apply (list_ext_nth 0%Q).
  - now rewrite par_loop_length, map_length.
  - intros t Ht. rewrite par_loop_length in Ht. rewrite par_loop_nth by exact Ht. rewrite L in Ht.
    assert (E : existsb (Nat.eqb t) order = true) by (apply existsb_exists; exists t; split; [now apply H|apply Nat.eqb_refl]). rewrite E.
    destruct (nth_error points t) as [p|] eqn:P; [|apply nth_error_None in P; lia].
    symmetry. apply nth_error_nth. rewrite nth_error_map, P. reflexivity.
Qed.
Lemma linspace_length a b n : length (linspace a b n) = n.
Proof. unfold linspace. now rewrite map_length, seq_length. Qed.
Lemma linspace_nth a b n t : (t < n)%nat -> (2 <= n)%nat ->
  nth t (linspace a b n) 0%Q = (a + (b - a) * (inject_Z (Z.of_nat t) / inject_Z (Z.of_nat n - 1)))%Q.
Proof.
  intros H N. unfold linspace. apply nth_error_nth. rewrite nth_error_map. rewrite (nth_error_nth_lt (seq 0 n) t 0%nat) by (rewrite seq_length; exact H).
  rewrite seq_nth by exact H. cbn [option_map Nat.add]. destruct (Nat.eqb n 1) eqn:E; [apply Nat.eqb_eq in E; lia|reflexivity].
Qed.
Lemma slice_correct nx ny nz data x1 y1 z1 x2 y2 z2 n fr m order empty : (2 <= n)%nat -> length empty = n -> (forall t, (t < n)%nat -> In t order) ->
  let r := linear_slice nx ny nz data (x1, y1, z1) (x2, y2, z2) n fr m order empty in
  length r = n /\ forall t, (t < n)%nat -> let s := (inject_Z (Z.of_nat t) / inject_Z (Z.of_nat n - 1))%Q in
    nth t r 0%Q = interpolate m nx ny nz data (x1 + (x2 - x1) * s, y1 + (y2 - y1) * s, z1 + (z2 - z1) * s)%Q fr.
Proof.
  intros N L H r. set (pts := combine (combine (linspace x1 x2 n) (linspace y1 y2 n)) (linspace z1 z2 n)).
  assert (LP : length pts = n) by (unfold pts; rewrite !combine_length, !linspace_length; lia).
  assert (R : r = map (fun p => interpolate m nx ny nz data p fr) pts) by (apply points_correct; rewrite LP; auto).
  rewrite R. split; [now rewrite map_length|]. intros t Ht s. apply nth_error_nth. rewrite nth_error_map.
  rewrite (nth_error_nth_lt pts t (0, 0, 0)%Q) by lia. cbn [option_map]. f_equal. f_equal. unfold pts.
  rewrite !combine_nth by (rewrite ?combine_length, !linspace_length; lia). now rewrite !linspace_nth by assumption.
Qed.
