(** C42, C69-C72: planes and the unit cell. *)
From Coq Require Import QArith Qabs Lqa Lia.
From Verif Require Import Base RootsModel UnionModel ChargeModel CoordModel NearModel NearSpec NearProofs WeightModel RefineModel PlaneModel PlaneSpec PlaneInt PlaneVol PlaneProofs PlaneWrap.
Local Open Scope Z_scope.

(** C42: the value is the volume of the part of the unit cube below the plane, to the nearest 1e-12. *)
Theorem C42_volume a b c d : ~ (a == 0 /\ b == 0 /\ c == 0)%Q ->
  exists w k, volume [a; b; c] (- d) w /\ nearest_even (w * inject_Z (10 ^ 12)) k /\
    (cube_fraction (a, b, c) d == inject_Z k / inject_Z (10 ^ 12))%Q.
Proof.
  intros NZ. destruct (cube_volume (a, b, c) d NZ) as (w & V & E).
  exists w, (py_round (w * inject_Z (10 ^ 12))). split; [exact V|]. split; [apply py_round_spec|exact E].
Qed.
Print Assumptions C42_volume.

(** The volume is determined by the region, so the previous statement pins the value down. *)
Theorem C42_meaning l t v : volume l t v ->
  (forall w, volume l t w -> (v == w)%Q) /\
  ((forall x, in_cube (length l) x -> (t < dot l x)%Q) -> (v == 0)%Q) /\
  ((forall x, in_cube (length l) x -> (dot l x <= t)%Q) -> (v == 1)%Q).
Proof.
  intros V. apply volume_volg in V. repeat split.
  - intros w W. apply volume_volg in W. exact (volg_unique closed closed_step l t t v w (Qeq_refl _) V W).
  - intros H. exact (volg_none closed closed_step l t v H V).
  - intros H. exact (volg_all l t v H V).
Qed.
Print Assumptions C42_meaning.

Theorem C42_range v d : (0 <= cube_fraction v d <= 1)%Q.
Proof. apply cube_range. Qed.
Print Assumptions C42_range.

Theorem C42_monotone a b c d d' : ~ (a == 0 /\ b == 0 /\ c == 0)%Q -> (d <= d')%Q ->
  (cube_fraction (a, b, c) d' <= cube_fraction (a, b, c) d)%Q.
Proof. intros NZ. now apply (cube_monotone (a, b, c)). Qed.
Print Assumptions C42_monotone.

(** The two sides of the plane fill the cube, exactly. *)
Theorem C42_both_sides a b c d : ~ (a == 0 /\ b == 0 /\ c == 0)%Q ->
  (cube_fraction (a, b, c) d + cube_fraction (- a, - b, - c)%Q (- d) == 1)%Q.
Proof. intros NZ. exact (cube_complement (a, b, c) d NZ). Qed.
Print Assumptions C42_both_sides.

Lemma one_side a b c d : ~ (a == 0 /\ b == 0 /\ c == 0)%Q ->
  (forall x y z, (0 <= x <= 1 -> 0 <= y <= 1 -> 0 <= z <= 1 -> a * x + b * y + c * z + d <= 0)%Q) -> (cube_fraction (a, b, c) d == 1)%Q.
Proof.
  intros NZ H. destruct (cube_volume (a, b, c) d NZ) as (w & V & E).
  destruct (C42_meaning _ _ _ V) as (_ & _ & M1). rewrite E. cbn [coeffs] in M1.
  rewrite (round12_comp w 1); [reflexivity|]. apply M1. intros x [L F]. destruct x as [|p [|q [|r [|? ?]]]]; try discriminate.
  inversion F as [|? ? Fp F1]; subst. inversion F1 as [|? ? Fq F2]; subst. inversion F2 as [|? ? Fr F3]; subst.
  specialize (H p q r Fp Fq Fr). cbn [dot]. lra.
Qed.

(** The cube may touch the plane from either side. *)
Theorem C42_one_side a b c d : ~ (a == 0 /\ b == 0 /\ c == 0)%Q ->
  ((forall x y z, (0 <= x <= 1 -> 0 <= y <= 1 -> 0 <= z <= 1 -> a * x + b * y + c * z + d <= 0)%Q) -> (cube_fraction (a, b, c) d == 1)%Q) /\
  ((forall x y z, (0 <= x <= 1 -> 0 <= y <= 1 -> 0 <= z <= 1 -> 0 <= a * x + b * y + c * z + d)%Q) -> (cube_fraction (a, b, c) d == 0)%Q).
Proof.
  intros NZ. split; [now apply one_side|]. intros H. pose proof (C42_both_sides a b c d NZ) as B.
  assert (cube_fraction (- a, - b, - c)%Q (- d) == 1)%Q; [|lra]. apply one_side; [intros (A1 & A2 & A3); apply NZ; repeat split; lra|].
  intros x y z Hx Hy Hz. specialize (H x y z Hx Hy Hz). lra.
Qed.
Print Assumptions C42_one_side.

Example corner_cut : (cube_fraction (1, 1, 1) (-1) == 166666666667 # 1000000000000)%Q.
Proof. reflexivity. Qed.
Example half_cut : (cube_fraction (1, -2, 3) (-1) == 1 # 2)%Q.
Proof. reflexivity. Qed.
Example flat_cut : (cube_fraction (0, 0, -4) 1 == 3 # 4)%Q.
Proof. reflexivity. Qed.

(** C69: a zero normal with the whole cube on the inner side is reported as empty. *)
Theorem C69_zero_normal_refuted : exists d, (d < 0)%Q /\ volume [0; 0; 0]%Q (- d) 1 /\ (cube_fraction (0, 0, 0)%Q d == 0)%Q.
Proof.
  exists (-1)%Q. split; [lra|]. split; [|reflexivity]. apply volume_volg.
  apply (volg_zero closed closed_step [] 0 [0; 0]%Q (Qeq_refl _)). apply (volg_zero closed closed_step [] 0 [0]%Q (Qeq_refl _)).
  apply (volg_zero closed closed_step [] 0 [] (Qeq_refl _)). reflexivity.
Qed.
Print Assumptions C69_zero_normal_refuted.

(** C70: the translations tried, the volumes measured and the planes kept, for every order of the
    parallel loop. *)
Theorem C70_translations : NoDup transformations /\ length transformations = 27%nat /\ nth_error transformations 0 = Some (0, 0, 0) /\
  forall i j k, In (i, j, k) transformations <-> -1 <= i <= 1 /\ -1 <= j <= 1 /\ -1 <= k <= 1.
Proof. exact transformations_all. Qed.
Print Assumptions C70_translations.

Theorem C70_volume p t a b c : vround12 (pl_vector p) = (a, b, c) -> ~ (a == 0 /\ b == 0 /\ c == 0)%Q ->
  exists w, volume [a; b; c] (vdot (a, b, c) (vshift (pl_point p) t)) w /\
    (Qabs (moved_volume p t - w) <= 1 # 2000000000000)%Q.
Proof. intros E NZ. destruct (moved_spec p t) as (w & V & D); [now rewrite E|]. exists w. rewrite E in V. auto. Qed.
Print Assumptions C70_volume.

Theorem C70_kept order planes : Permutation order (all_pairs planes) ->
  (forall p, In p planes -> (pl_site p < length (nodup Nat.eq_dec (map pl_site planes)))%nat) ->
  exists out, cell_wrapped order planes = Done out /\
    forall w, In w out <-> exists p i t, In p planes /\ nth_error transformations i = Some t /\
      w = Wrapped (pl_site p) i (vshift (pl_point p) t) (vround12 (pl_vector p)) (moved_volume p t) /\
      ~ (moved_volume p t == 1)%Q /\ (forall q, In q planes -> pl_site q = pl_site p -> ~ (moved_volume q t == 0)%Q).
Proof. apply wrapped_spec. Qed.
Print Assumptions C70_kept.

(** C71: a partition that contains the whole cell leaves no planes at all, so its voxels find no site. *)
Definition face (x y z a b c : Q) : plane := Plane 0 (x, y, z) (a, b, c).
Definition simple_cubic : list plane :=
  [face 1 (1#2) (1#2) 1 0 0; face 0 (1#2) (1#2) (-1) 0 0; face (1#2) 1 (1#2) 0 1 0; face (1#2) 0 (1#2) 0 (-1) 0;
   face (1#2) (1#2) 1 0 0 1; face (1#2) (1#2) 0 0 0 (-1)].


Lemma face_volume x y z a b c t : let v := vround12 (a, b, c) in let '(a', b', c') := v in
  ~ (a' == 0 /\ b' == 0 /\ c' == 0)%Q -> let '(i, j, k) := t in
  let d := (a' * (x + inject_Z i) + b' * (y + inject_Z j) + c' * (z + inject_Z k))%Q in
  ((forall p q r, (0 <= p <= 1 -> 0 <= q <= 1 -> 0 <= r <= 1 -> a' * p + b' * q + c' * r <= d)%Q) -> (moved_volume (face x y z a b c) t == 1)%Q) /\
  ((forall p q r, (0 <= p <= 1 -> 0 <= q <= 1 -> 0 <= r <= 1 -> d <= a' * p + b' * q + c' * r)%Q) -> (moved_volume (face x y z a b c) t == 0)%Q).
Proof.
  cbv zeta. destruct (vround12 (a, b, c)) as [[a' b'] c'] eqn:E. intros NZ. destruct t as [[i j] k].
  unfold moved_volume, face. cbn [pl_vector pl_point]. rewrite E. cbn [vopp vshift vdot].
  destruct (C42_one_side a' b' c' (- a' * (x + inject_Z i) + - b' * (y + inject_Z j) + - c' * (z + inject_Z k))%Q NZ) as [A B].
  split; intros H; [apply A|apply B]; intros p q r Hp Hq Hr; specialize (H p q r Hp Hq Hr); lra.
Qed.

Theorem C71_whole_cell_refuted : exists planes, Forall (fun p => pl_site p = 0%nat) planes /\
  (forall x, in_cube 3 x -> Forall (fun p => (dot (coeffs (pl_vector p)) x <= vdot (pl_vector p) (pl_point p))%Q) planes) /\
  cell_wrapped (all_pairs planes) planes = Done [].
Proof.
  exists simple_cubic. split; [repeat constructor|]. split.
  - intros x [L F]. destruct x as [|p [|q [|r [|? ?]]]]; try discriminate.
    inversion F as [|? ? Fp F1]; subst. inversion F1 as [|? ? Fq F2]; subst. inversion F2 as [|? ? Fr F3]; subst.
    unfold simple_cubic. repeat constructor; cbn -[Qle Qplus Qmult]; lra.
  - destruct (wrapped_spec (all_pairs simple_cubic) simple_cubic (Permutation_refl _)) as (out & E & S).
    { intros p Hp. unfold simple_cubic in Hp. cbn [In] in Hp. change (length (nodup Nat.eq_dec (map pl_site simple_cubic))) with 1%nat.
      repeat (destruct Hp as [<-|Hp]; [cbn; lia|]). contradiction. }
    rewrite E. f_equal. destruct out as [|w out]; [reflexivity|]. exfalso.
    destruct (proj1 (S w) (or_introl eq_refl)) as (p & n & [[i j] k] & Hp & _ & _ & N1 & N0).
    assert (T : forall z, z < 0 -> (inject_Z z <= -1)%Q) by (intros z Hz; unfold Qle; cbn; lia).
    assert (U : forall z, 0 <= z -> (0 <= inject_Z z)%Q) by (intros z Hz; unfold Qle; cbn; lia).
    assert (U' : forall z, z <= 0 -> (inject_Z z <= 0)%Q) by (intros z Hz; unfold Qle; cbn; lia).
    assert (T' : forall z, 0 < z -> (1 <= inject_Z z)%Q) by (intros z Hz; unfold Qle; cbn; lia).
    pose proof (face_volume 1 (1#2) (1#2) 1 0 0 (i, j, k)) as Z1. pose proof (face_volume 0 (1#2) (1#2) (-1) 0 0 (i, j, k)) as Z2.
    pose proof (face_volume (1#2) 1 (1#2) 0 1 0 (i, j, k)) as Z3. pose proof (face_volume (1#2) 0 (1#2) 0 (-1) 0 (i, j, k)) as Z4.
    pose proof (face_volume (1#2) (1#2) 1 0 0 1 (i, j, k)) as Z5. pose proof (face_volume (1#2) (1#2) 0 0 0 (-1) (i, j, k)) as Z6.
    cbv zeta in Z1, Z2, Z3, Z4, Z5, Z6.
    change (vround12 (1, 0, 0)%Q) with (1000000000000 # 1000000000000, 0 # 1000000000000, 0 # 1000000000000)%Q in Z1.
    change (vround12 (-1, 0, 0)%Q) with (-1000000000000 # 1000000000000, 0 # 1000000000000, 0 # 1000000000000)%Q in Z2.
    change (vround12 (0, 1, 0)%Q) with (0 # 1000000000000, 1000000000000 # 1000000000000, 0 # 1000000000000)%Q in Z3.
    change (vround12 (0, -1, 0)%Q) with (0 # 1000000000000, -1000000000000 # 1000000000000, 0 # 1000000000000)%Q in Z4.
    change (vround12 (0, 0, 1)%Q) with (0 # 1000000000000, 0 # 1000000000000, 1000000000000 # 1000000000000)%Q in Z5.
    change (vround12 (0, 0, -1)%Q) with (0 # 1000000000000, 0 # 1000000000000, -1000000000000 # 1000000000000)%Q in Z6.
    destruct Z1 as [A1 B1]; [lra|]. destruct Z2 as [A2 B2]; [lra|]. destruct Z3 as [A3 B3]; [lra|].
    destruct Z4 as [A4 B4]; [lra|]. destruct Z5 as [A5 B5]; [lra|]. destruct Z6 as [A6 B6]; [lra|].
    assert (SC : forall q, In q simple_cubic -> ~ (moved_volume q (i, j, k) == 0)%Q).
    { intros q Hq. apply N0; [exact Hq|]. assert (ZS : forall r, In r simple_cubic -> pl_site r = 0%nat).
      { intros r Hr. unfold simple_cubic in Hr. cbn [In] in Hr. repeat (destruct Hr as [<-|Hr]; [reflexivity|]). contradiction. }
      now rewrite !ZS. }
    assert (Hi : i = 0) by (destruct (Z.lt_trichotomy i 0) as [L|[L|L]]; [exfalso|exact L|exfalso];
      [apply (SC (face 1 (1#2) (1#2) 1 0 0)); [cbn; tauto|]; apply B1; intros; specialize (T i L); lra
      |apply (SC (face 0 (1#2) (1#2) (-1) 0 0)); [cbn; tauto|]; apply B2; intros; specialize (T' i L); lra]).
    assert (Hj : j = 0) by (destruct (Z.lt_trichotomy j 0) as [L|[L|L]]; [exfalso|exact L|exfalso];
      [apply (SC (face (1#2) 1 (1#2) 0 1 0)); [cbn; tauto|]; apply B3; intros; specialize (T j L); lra
      |apply (SC (face (1#2) 0 (1#2) 0 (-1) 0)); [cbn; tauto|]; apply B4; intros; specialize (T' j L); lra]).
    assert (Hk : k = 0) by (destruct (Z.lt_trichotomy k 0) as [L|[L|L]]; [exfalso|exact L|exfalso];
      [apply (SC (face (1#2) (1#2) 1 0 0 1)); [cbn; tauto|]; apply B5; intros; specialize (T k L); lra
      |apply (SC (face (1#2) (1#2) 0 0 0 (-1))); [cbn; tauto|]; apply B6; intros; specialize (T' k L); lra]).
    subst i j k. unfold inject_Z in *. unfold simple_cubic in Hp. cbn [In] in Hp.
    destruct Hp as [<-|[<-|[<-|[<-|[<-|[<-|[]]]]]]]; apply N1; [apply A1|apply A2|apply A3|apply A4|apply A5|apply A6]; intros; lra.
Qed.
Print Assumptions C71_whole_cell_refuted.

(** An atom at the origin: the plane half way to its neighbour halves the cell. *)
Example origin_plane : (moved_volume (Plane 0 (1#2, 0, 0)%Q (1, 0, 0)%Q) (0, 0, 0)%Z == 1 # 2)%Q.
Proof. reflexivity. Qed.

(** C72: a plane is marked exactly when at least three vertices lie on it. *)
Theorem C72_surface eqns vertices tol i : (i < length eqns)%nat ->
  length (planes_on_surface eqns vertices tol) = length eqns /\
  nth i (planes_on_surface eqns vertices tol) false =
  let '(a, b, c, d) := nth i eqns (0, 0, 0, 0)%Q in
  Nat.leb 3 (length (filter (fun '(x, y, z) => negb (Qltb tol (qabs (x * a + y * b + z * c + d)%Q))) vertices)).
Proof.
  intros H. unfold planes_on_surface. rewrite map_length. split; [reflexivity|].
  rewrite (nth_indep _ false (on_surface (0, 0, 0, 0)%Q tol vertices 0)) by (rewrite map_length; exact H).
  rewrite (map_nth (fun e => on_surface e tol vertices 0)). rewrite on_surface_spec by lia.
  destruct (nth i eqns (0, 0, 0, 0)%Q) as [[[a b] c] d]. reflexivity.
Qed.
Print Assumptions C72_surface.

Example square_face : planes_on_surface [(1, 0, 0, -1); (1, 1, 0, -2)]%Q [(1, 0, 0); (0, 0, 0); (1, 1, 0); (1, 1, 1); (1, 0, 1)]%Q 0 = [true; false].
Proof. reflexivity. Qed.
