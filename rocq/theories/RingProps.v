(** C213-C214: points, rings and cages. *)
From Coq Require Import QArith Qround Qabs Lqa Lia.
From Verif Require Import Base ChargeModel NearModel NearSpec NearProofs RootsModel RingModel.
Local Open Scope Z_scope.

Definition veq (a b : vec) : Prop := let '(x, y, z) := a in let '(u, v, w) := b in (x == u /\ y == v /\ z == w)%Q.
Definition dotp (a b : vec) : Q := let '(x, y, z) := a in let '(u, v, w) := b in (x * u + y * v + z * w)%Q.
Definition minus (a b : vec) : vec := map2 Qminus a b.
Definition plus (a b : vec) : vec := map2 Qplus a b.
Definition nonzero (v : vec) : Prop := ~ veq v (0, 0, 0)%Q.
(** The sum of the squared components along a vector. *)
Definition spread (pts : list vec) (v : vec) : Q := fold_right (fun p s => dotp p v * dotp p v + s)%Q 0%Q pts.
(** Singular values to a relative error: the largest bounds the spread in every direction, the smallest is no larger
    than the spread of any direction allows and is attained. *)
Definition svd_near (e : Q) (svd : list vec -> Q * Q) (pts : list vec) : Prop :=
  let '(l, s) := svd pts in (0 <= s <= l)%Q /\
    (forall v, spread pts v <= (l * l) * (1 + e) * norm2 v)%Q /\
    (forall v, s * s * norm2 v <= spread pts v + e * e * (l * l) * norm2 v)%Q /\
    (exists v, nonzero v /\ (spread pts v <= (s * s + e * e * (l * l)) * norm2 v)%Q).

(** Images of the points under lattice translations that lie within half a cell of each other. *)
Definition image (c u : vec) : Prop := exists i j k, veq u (plus c (inject_Z i, inject_Z j, inject_Z k)).
Definition near_half (u v : vec) : Prop := let '(x, y, z) := minus u v in (Qabs x < 1 # 2 /\ Qabs y < 1 # 2 /\ Qabs z < 1 # 2)%Q.
Definition together (us : list vec) : Prop := forall u v, In u us -> In v us -> near_half u v.
Definition mean (us : list vec) : vec := vmap (fun x => x / inject_Z (Z.of_nat (length us)))%Q (fold_right plus (0, 0, 0)%Q us).

Lemma round_near q z : (Qabs (q - inject_Z z) < 1 # 2)%Q -> py_round q = z.
Proof.
  intros A. destruct (py_round_spec q) as [B _]. set (r := py_round q) in *. apply Qabs_Qlt_condition in A as [A1 A2].
  assert (inject_Z r - inject_Z z < 1)%Q by lra. assert (-(1) < inject_Z r - inject_Z z)%Q by lra.
  assert (E1 : (inject_Z (r + - z) < inject_Z 1)%Q) by (rewrite inject_Z_plus, inject_Z_opp; change (inject_Z 1) with 1%Q; lra).
  assert (E2 : (inject_Z (-1) < inject_Z (r + - z))%Q) by (rewrite inject_Z_plus, inject_Z_opp; change (inject_Z (-1)) with (-(1))%Q; lra).
  rewrite <- Zlt_Qlt in E1, E2. lia.
Qed.
(** The unwrapped point is the image, moved by the translation of the first point. *)
Lemma unwrap1_image ref c u0 u i k : (u0 == ref + inject_Z k)%Q -> (u == c + inject_Z i)%Q -> (Qabs (u - u0) < 1 # 2)%Q -> (unwrap1 ref c == u - inject_Z k)%Q.
Proof.
  intros E0 E A. unfold unwrap1. rewrite (round_near (c - ref) (k - i)).
  - replace (k - i) with (k + - i) by lia. rewrite inject_Z_plus, inject_Z_opp, E. ring.
  - replace (k - i) with (k + - i) by lia. rewrite inject_Z_plus, inject_Z_opp. setoid_replace (c - ref - (inject_Z k + - inject_Z i))%Q with (u - u0)%Q by (rewrite E, E0; ring). exact A.
Qed.
Lemma unwrap_images pts us : Forall2 image pts us -> together us -> exists d, Forall2 veq (unwrap pts) (map (fun u => minus u d) us).
Proof.
  intros F T. destruct F as [|c0 u0 pts us I0 F]; [exists (0, 0, 0)%Q; constructor|]. destruct I0 as (i0 & j0 & k0 & I0). exists (inject_Z i0, inject_Z j0, inject_Z k0).
  assert (L : forall c u, image c u -> near_half u u0 -> veq (map2 unwrap1 c0 c) (minus u (inject_Z i0, inject_Z j0, inject_Z k0))).
  { intros [[x y] z] [[u v] w] (i & j & k & E) N. destruct c0 as [[x0 y0] z0], u0 as [[a0 b0] w0]. cbn in *. destruct I0 as (A0 & B0 & C0), E as (A & B & C), N as (NA & NB & NC).
    split; [|split]; eapply unwrap1_image; eauto. }
  assert (N0 : forall u, In u (u0 :: us) -> near_half u u0) by (intros u U; apply T; [exact U|now left]).
  cbn [unwrap map]. constructor; [apply L; [exists i0, j0, k0; exact I0|apply N0; now left]|]. assert (N1 : forall u, In u us -> near_half u u0) by (intros u U; apply N0; now right). clear - L F N1.
  induction F as [|c u pts us I F IH]; [constructor|]. cbn [map]. constructor; [apply L; [exact I|apply N1; now left]|]. apply IH. intros v V. apply N1. now right.
Qed.
Lemma veq_refl a : veq a a.
Proof. destruct a as [[x y] z]. cbn. split; [|split]; reflexivity. Qed.
Lemma veq_trans a b c : veq a b -> veq b c -> veq a c.
Proof. destruct a as [[x y] z], b as [[x' y'] z'], c as [[x'' y''] z'']. cbn. intros (A & B & C) (D & E & F). rewrite A, B, C, D, E, F. repeat split; reflexivity. Qed.
Lemma total_plus l : forall a, veq (fold_left (map2 Qplus) l a) (plus a (fold_right plus (0, 0, 0)%Q l)).
Proof.
  induction l as [|p l IH]; intros a; cbn [fold_left fold_right].
  - destruct a as [[x y] z]. cbn. repeat split; ring.
  - eapply veq_trans; [apply IH|]. destruct a as [[x y] z], p as [[u v] w], (fold_right plus _ l) as [[r s] t]. cbn. repeat split; ring.
Qed.
Lemma sum_veq l m d : Forall2 veq l (map (fun u => minus u d) m) -> let n := inject_Z (Z.of_nat (length m)) in veq (fold_right plus (0, 0, 0)%Q l) (minus (fold_right plus (0, 0, 0)%Q m) (vmap (fun x => x * n)%Q d)).
Proof.
  revert l. induction m as [|u m IH]; intros l F; inversion F as [|p q l' m' E F' E1 E2]; subst.
  - destruct d as [[x y] z]. cbn. repeat split; ring.
  - specialize (IH _ F'). cbn [fold_right length]. rewrite Nat2Z.inj_succ. unfold Z.succ. destruct p as [[p1 p2] p3], u as [[u1 u2] u3], d as [[d1 d2] d3], (fold_right plus _ l') as [[a b] c], (fold_right plus _ m) as [[r s] t]. cbn in *. destruct E as (A & B & C), IH as (A' & B' & C'). rewrite A, B, C, A', B', C'. rewrite inject_Z_plus. change (inject_Z 1) with 1%Q. repeat split; ring.
Qed.
(** C213: points that fit into half a cell are centred around their mean, whatever the images given and whichever of
    them comes first. *)
Theorem C213_centred pts us : pts <> [] -> Forall2 image pts us -> together us -> Forall2 veq (centred pts) (map (fun u => minus u (mean us)) us).
Proof.
  intros N F T. destruct (unwrap_images pts us F T) as (d & U). assert (LE : length (unwrap pts) = length us).
  { clear - U. revert U. generalize (unwrap pts). induction us as [|u us IH]; intros l U; inversion U; subst; cbn; [reflexivity|]. f_equal. now apply IH. }
  assert (NZ : ~ (inject_Z (Z.of_nat (length us)) == 0)%Q).
  { destruct F; [contradiction|]. cbn [length]. rewrite Nat2Z.inj_succ. intros E. change 0%Q with (inject_Z 0) in E. rewrite inject_Z_injective in E. lia. }
  assert (AV : veq (average (unwrap pts)) (minus (mean us) d)).
  { unfold average, mean. rewrite LE. pose proof (total_plus (unwrap pts) (0, 0, 0)%Q) as TP. pose proof (sum_veq _ _ _ U) as SV. cbv zeta in SV. unfold total. set (n := inject_Z (Z.of_nat (length us))) in *.
    destruct (fold_left (map2 Qplus) (unwrap pts) (0, 0, 0)%Q) as [[a b] c], (fold_right plus (0, 0, 0)%Q (unwrap pts)) as [[a' b'] c'], (fold_right plus (0, 0, 0)%Q us) as [[a'' b''] c''], d as [[d1 d2] d3]. cbn in *. destruct TP as (A & B & C), SV as (A' & B' & C'). rewrite A, B, C, A', B', C'. repeat split; field; exact NZ. }
  unfold centred. cbv zeta. destruct (average (unwrap pts)) as [[a1 a2] a3], (mean us) as [[m1 m2] m3]. clear - U AV. revert U. generalize (unwrap pts). induction us as [|u us IH]; intros l U; inversion U as [|p q l' m' E F' E1 E2]; subst; [constructor|]. cbn [map]. constructor; [|now apply IH].
  destruct p as [[p1 p2] p3], u as [[u1 u2] u3], d as [[d1 d2] d3]. cbn in *. destruct E as (A & B & C), AV as (A' & B' & C'). rewrite A, B, C, A', B', C'. repeat split; ring.
Qed.

(** ** Planes *)
Definition in_plane (us : list vec) : Prop := exists w d, nonzero w /\ forall u, In u us -> (dotp u w == d)%Q.
Lemma norm2_pos v : nonzero v -> (0 < norm2 v)%Q.
Proof.
  destruct v as [[x y] z]. unfold nonzero, veq, norm2. intros N. assert (Qx : (0 <= x * x)%Q) by nra. assert (Qy : (0 <= y * y)%Q) by nra. assert (Qz : (0 <= z * z)%Q) by nra.
  destruct (Qlt_le_dec 0 (x * x + y * y + z * z)) as [P|P]; [exact P|]. exfalso. apply N. assert (S : forall q, (q * q <= 0)%Q -> (q == 0)%Q) by (intros q L; destruct (Qlt_le_dec q 0); [nra|destruct (Qlt_le_dec 0 q); nra]). repeat split; apply S; lra.
Qed.
Lemma spread_zero pts v : (forall p, In p pts -> (dotp p v == 0)%Q) -> (spread pts v == 0)%Q.
Proof. induction pts as [|p pts IH]; intros H; [reflexivity|]. cbn. rewrite (H p (or_introl eq_refl)), IH by (intros q Q; apply H; now right). ring. Qed.
Lemma spread_nonneg pts v : (0 <= spread pts v)%Q.
Proof. induction pts as [|p pts IH]; [cbn; lra|]. assert (0 <= dotp p v * dotp p v)%Q by nra. change (0 <= dotp p v * dotp p v + spread pts v)%Q. lra. Qed.
Lemma spread_term pts v p : In p pts -> (dotp p v * dotp p v <= spread pts v)%Q.
Proof. induction pts as [|q pts IH]; [contradiction|]. change (spread (q :: pts) v) with (dotp q v * dotp q v + spread pts v)%Q. assert (0 <= dotp q v * dotp q v)%Q by nra. pose proof (spread_nonneg pts v). intros [->|I]; [lra|]. specialize (IH I). lra. Qed.
Lemma dotp_veq a b v : veq a b -> (dotp a v == dotp b v)%Q.
Proof. destruct a as [[x y] z], b as [[x' y'] z'], v as [[u w] t]. cbn. intros (A & B & C). now rewrite A, B, C. Qed.
Lemma sum_dot us w d : (forall u, In u us -> (dotp u w == d)%Q) -> (dotp (fold_right plus (0, 0, 0)%Q us) w == d * inject_Z (Z.of_nat (length us)))%Q.
Proof.
  induction us as [|u us IH]; intros H; [destruct w as [[x y] z]; cbn; ring|]. cbn [fold_right length]. rewrite Nat2Z.inj_succ. unfold Z.succ. rewrite inject_Z_plus. change (inject_Z 1) with 1%Q.
  assert (E : (dotp (plus u (fold_right plus (0, 0, 0)%Q us)) w == dotp u w + dotp (fold_right plus (0, 0, 0)%Q us) w)%Q) by (destruct u as [[a b] c], (fold_right plus _ us) as [[r s] t], w as [[x y] z]; cbn; ring).
  rewrite E, (H u (or_introl eq_refl)), IH by (intros v V; apply H; now right). ring.
Qed.
Lemma F2_in {A B} (R : A -> B -> Prop) l m a : Forall2 R l m -> In a l -> exists b, In b m /\ R a b.
Proof. induction 1 as [|x y l m XY F IH]; [contradiction|]. intros [->|I]; [exists y; split; [now left|exact XY]|]. destruct (IH I) as (b & B1 & B2). exists b. split; [now right|exact B2]. Qed.
Lemma F2_in' {A B} (R : A -> B -> Prop) l m b : Forall2 R l m -> In b m -> exists a, In a l /\ R a b.
Proof. induction 1 as [|x y l m XY F IH]; [contradiction|]. intros [->|I]; [exists x; split; [now left|exact XY]|]. destruct (IH I) as (a & A1 & A2). exists a. split; [now right|exact A2]. Qed.
Lemma F2_len {A B} (R : A -> B -> Prop) l m : Forall2 R l m -> length l = length m.
Proof. induction 1; cbn; congruence. Qed.
Lemma square_lt a b : (0 <= a)%Q -> (0 <= b)%Q -> (a * a <= b * b)%Q -> (a <= b)%Q.
Proof. intros A B S. destruct (Qlt_le_dec b a) as [L|L]; [nra|exact L]. Qed.
Lemma largest_pos e svd pts us : svd_near e svd (centred pts) -> pts <> [] -> Forall2 image pts us -> together us -> (exists u v, In u us /\ In v us /\ ~ veq u v) -> ~ (fst (svd (centred pts)) == 0)%Q.
Proof.
  intros SV N F T (u & v & U & V & D). pose proof (C213_centred pts us N F T) as C. pose proof SV as P. unfold svd_near in P. destruct (svd (centred pts)) as [l s]. destruct P as (_ & UP & _). cbn [fst]. intros Z0.
  set (m := mean us) in *. set (w := minus u v).
  assert (WN : nonzero w). { intros E. apply D. destruct u as [[a b] c], v as [[a' b'] c']. unfold w, minus in E. cbn in *. destruct E as (E1 & E2 & E3). repeat split; lra. }
  assert (S0 : (spread (centred pts) w <= 0)%Q) by (specialize (UP w); rewrite Z0 in UP; lra).
  assert (DZ : forall x, In x us -> (dotp (minus x m) w == 0)%Q).
  { intros x X. destruct (F2_in' _ _ _ (minus x m) C) as (p & P & E); [apply in_map_iff; exists x; auto|]. pose proof (spread_term _ w p P) as ST. rewrite <- (dotp_veq _ _ w E). destruct (Qlt_le_dec (dotp p w) 0); [nra|destruct (Qlt_le_dec 0 (dotp p w)); [nra|lra]]. }
  pose proof (DZ u U) as DU. pose proof (DZ v V) as DV. pose proof (norm2_pos w WN) as NP. assert (E : (norm2 w == dotp (minus u m) w - dotp (minus v m) w)%Q) by (unfold w; destruct u as [[a b] c], v as [[a' b'] c'], m as [[m1 m2] m3]; cbn; ring). rewrite DU, DV in E. lra.
Qed.

(** C214: fewer than three points are a point and three are a ring.  More points that fit into half a cell are a ring if
    they lie in a plane, and a ring only if some plane through their mean holds them to the tolerance. *)
Theorem C214_few svd tol pts : (length pts < 3)%nat -> pt_ring_cage svd tol pts = Done 0.
Proof. intros L. unfold pt_ring_cage. apply Nat.ltb_lt in L. now rewrite L. Qed.
Theorem C214_three svd tol pts : length pts = 3%nat -> pt_ring_cage svd tol pts = Done 1.
Proof. intros L. unfold pt_ring_cage. now rewrite L. Qed.
Theorem C214_plane e svd tol pts us : svd_near e svd (centred pts) -> (0 <= e < tol)%Q -> (3 < length pts)%nat -> Forall2 image pts us -> together us -> (exists u v, In u us /\ In v us /\ ~ veq u v) ->
  in_plane us -> pt_ring_cage svd tol pts = Done 1.
Proof.
  intros SV E L F T D (w & d & W & P). assert (N : pts <> []) by (destruct pts; [cbn in L; lia|discriminate]). pose proof (C213_centred pts us N F T) as C. pose proof (largest_pos e svd pts us SV N F T D) as LP. unfold pt_ring_cage.
  replace (Nat.ltb (length pts) 3) with false by (symmetry; apply Nat.ltb_ge; lia). replace (Nat.eqb (length pts) 3) with false by (symmetry; apply Nat.eqb_neq; lia).
  pose proof SV as Q. unfold svd_near in Q. destruct (svd (centred pts)) as [l s]. cbn [fst] in LP. destruct Q as ((S0 & SL) & _ & LO & _).
  destruct (Qeq_bool l 0) eqn:Z0; [apply Qeq_bool_iff in Z0; contradiction|].
  assert (SZ : (spread (centred pts) w == 0)%Q).
  { apply spread_zero. intros p I. destruct (F2_in _ _ _ p C I) as (q & J & V). apply in_map_iff in J as (u & <- & U). rewrite (dotp_veq _ _ w V).
    assert (M : (dotp (mean us) w == d)%Q).
    { pose proof (sum_dot us w d P) as SD. unfold mean. set (n := inject_Z (Z.of_nat (length us))) in *. assert (NZ : ~ (n == 0)%Q). { unfold n. destruct us; [contradiction|]. cbn [length]. rewrite Nat2Z.inj_succ. intros X. change 0%Q with (inject_Z 0) in X. rewrite inject_Z_injective in X. lia. }
      destruct (fold_right plus (0, 0, 0)%Q us) as [[a b] c], w as [[x y] z]. cbn in *. setoid_replace (a / n * x + b / n * y + c / n * z)%Q with ((a * x + b * y + c * z) / n)%Q by (field; exact NZ). rewrite SD. field. exact NZ. }
    assert (X : (dotp (minus u (mean us)) w == dotp u w - dotp (mean us) w)%Q) by (destruct u as [[a b] c], (mean us) as [[a' b'] c'], w as [[x y] z]; cbn; ring). rewrite X, M, (P u U). ring. }
  specialize (LO w). rewrite SZ in LO. pose proof (norm2_pos w W) as NP. assert (LPos : (0 < l)%Q) by (destruct (Qlt_le_dec 0 l); [assumption|exfalso; apply LP; lra]).
  assert (S2 : (s * s <= e * l * (e * l))%Q) by (apply Qmult_le_r with (z := norm2 w); [exact NP|]; lra). assert (SE : (s <= e * l)%Q) by (apply square_lt; [lra|nra|exact S2]).
  assert (Qltb (s / l) tol = true) as ->; [|reflexivity]. apply Qltb_lt. apply Qle_lt_trans with e; [|lra]. apply Qle_shift_div_r; [exact LPos|]. lra.
Qed.
Theorem C214_near e svd tol pts us : svd_near e svd (centred pts) -> (0 <= tol)%Q -> (3 < length pts)%nat -> Forall2 image pts us -> together us -> pt_ring_cage svd tol pts = Done 1 ->
  exists w, nonzero w /\ (spread (map (fun u => minus u (mean us)) us) w <= (tol * tol + e * e) * (fst (svd (centred pts)) * fst (svd (centred pts))) * norm2 w)%Q.
Proof.
  intros SV TO L F T R. assert (N : pts <> []) by (destruct pts; [cbn in L; lia|discriminate]). pose proof (C213_centred pts us N F T) as C. unfold pt_ring_cage in R.
  replace (Nat.ltb (length pts) 3) with false in R by (symmetry; apply Nat.ltb_ge; lia). replace (Nat.eqb (length pts) 3) with false in R by (symmetry; apply Nat.eqb_neq; lia).
  pose proof SV as Q. unfold svd_near in Q. destruct (svd (centred pts)) as [l s]. cbn [fst] in *. destruct Q as ((S0 & SL) & _ & _ & w & W & LE). destruct (Qeq_bool l 0) eqn:Z0; [discriminate|].
  assert (LPos : (0 < l)%Q) by (destruct (Qlt_le_dec 0 l); [assumption|exfalso; assert (l == 0)%Q as E by lra; apply Qeq_bool_iff in E; congruence]).
  destruct (Qltb (s / l) tol) eqn:B; [|discriminate]. apply Qltb_lt in B. assert (SB : (s <= tol * l)%Q) by (assert (s / l * l == s)%Q by (field; lra); nra).
  exists w. split; [exact W|]. assert (SE : (spread (map (fun u => minus u (mean us)) us) w == spread (centred pts) w)%Q).
  { clear - C. induction C as [|p q l m E C IH]; [reflexivity|]. cbn. rewrite (dotp_veq _ _ w E). apply Qplus_comp; [reflexivity|exact IH]. }
  rewrite SE. pose proof (norm2_pos w W) as NP. eapply Qle_trans; [exact LE|]. apply Qmult_le_r; [exact NP|]. nra.
Qed.

(** Otherwise they are a cage. *)
Theorem C214_cage e svd tol pts us : svd_near e svd (centred pts) -> (0 <= tol)%Q -> (3 < length pts)%nat -> Forall2 image pts us -> together us -> (exists u v, In u us /\ In v us /\ ~ veq u v) ->
  (forall w, nonzero w -> ((tol * tol + e * e) * (fst (svd (centred pts)) * fst (svd (centred pts))) * norm2 w < spread (map (fun u => minus u (mean us)) us) w)%Q) -> pt_ring_cage svd tol pts = Done 2.
Proof.
  intros SV TO L F T D H. assert (N : pts <> []) by (destruct pts; [cbn in L; lia|discriminate]). pose proof (largest_pos e svd pts us SV N F T D) as LP. pose proof (C214_near e svd tol pts us SV TO L F T) as NE. unfold pt_ring_cage in *.
  replace (Nat.ltb (length pts) 3) with false in * by (symmetry; apply Nat.ltb_ge; lia). replace (Nat.eqb (length pts) 3) with false in * by (symmetry; apply Nat.eqb_neq; lia).
  destruct (svd (centred pts)) as [l s]. cbn [fst] in *. destruct (Qeq_bool l 0) eqn:Z0; [apply Qeq_bool_iff in Z0; contradiction|].
  destruct (Qltb (s / l) tol); [|reflexivity]. destruct (NE eq_refl) as (w & W & LE). specialize (H w W). lra.
Qed.
Print Assumptions C214_cage.

Lemma spread_veq l m w : Forall2 veq l m -> (spread l w == spread m w)%Q.
Proof. induction 1 as [|p q l m E C IH]; [reflexivity|]. cbn. rewrite (dotp_veq _ _ w E). apply Qplus_comp; [reflexivity|exact IH]. Qed.
(** ** Examples: the corners of a square across the cell boundary, and of a tetrahedron *)
Definition square : list vec := [(1 # 10, 1 # 10, 0); (9 # 10, 1 # 10, 0); (9 # 10, 9 # 10, 0); (1 # 10, 9 # 10, 0)]%Q.
Definition square_images : list vec := [(1 # 10, 1 # 10, 0); (-(1) # 10, 1 # 10, 0); (-(1) # 10, -(1) # 10, 0); (1 # 10, -(1) # 10, 0)]%Q.
Definition tetra : list vec := [(1 # 10, 1 # 10, 1 # 10); (1 # 10, 9 # 10, 9 # 10); (9 # 10, 1 # 10, 9 # 10); (9 # 10, 9 # 10, 1 # 10)]%Q.
Example C213_ex : map (vmap Qred) (centred square) = square_images /\ map (vmap Qred) (centred tetra) = [(1 # 10, 1 # 10, 1 # 10); (1 # 10, -(1) # 10, -(1) # 10); (-(1) # 10, 1 # 10, -(1) # 10); (-(1) # 10, -(1) # 10, 1 # 10)]%Q.
Proof. vm_compute. auto. Qed.
Example C214_square_svd : svd_near 0 (fun _ => (1 # 5, 0)%Q) (centred square) /\ Forall2 image square square_images /\ together square_images /\ in_plane square_images /\ pt_ring_cage (fun _ => (1 # 5, 0)%Q) (1 # 1000) square = Done 1.
Proof.
  split.
  - assert (C : Forall2 veq (centred square) square_images) by (unfold centred, square_images; cbv zeta; repeat (constructor; [vm_compute; auto|]); constructor).
    unfold svd_near. split; [lra|]. split; [|split].
    + intros v. rewrite (spread_veq _ _ v C). destruct v as [[x y] z]. cbn. assert (0 <= z * z)%Q by nra. lra.
    + intros v. rewrite (spread_veq _ _ v C). destruct v as [[x y] z]. cbn. assert (0 <= x * x)%Q by nra. assert (0 <= y * y)%Q by nra. lra.
    + exists (0, 0, 1)%Q. split; [intros (_ & _ & E); discriminate E|]. vm_compute. discriminate.
  - split; [|split; [|split; [|reflexivity]]].
    + repeat constructor; [exists 0, 0, 0|exists (-1), 0, 0|exists (-1), (-1), 0|exists 0, (-1), 0]; repeat split.
    + intros u v U V. cbn in U, V. repeat (destruct U as [<-|U]; [repeat (destruct V as [<-|V]; [repeat split|]); contradiction|]). contradiction.
    + exists (0, 0, 1)%Q, 0%Q. split; [intros (_ & _ & E); discriminate E|]. intros u U. cbn in U. repeat (destruct U as [<-|U]; [reflexivity|]). contradiction.
Qed.
Example C214_tetra : pt_ring_cage (fun _ => (1 # 5, 1 # 5)%Q) (1 # 1000) tetra = Done 2 /\ pt_ring_cage (fun _ => (1, 1)%Q) (1 # 1000) [] = Done 0 /\ pt_ring_cage (fun _ => (0, 0)%Q) (1 # 1000) (repeat (0, 0, 0)%Q 4) = Raised.
Proof. vm_compute. auto. Qed.
Print Assumptions C213_centred.
Print Assumptions C214_few.
Print Assumptions C214_three.
Print Assumptions C214_plane.
Print Assumptions C214_near.
