(** C27: what the refinement of maxima fits. *)
From Verif Require Import Base GridModel NeighSpec ChargeModel ChargeProofs NearModel NearSpec NearProofs SurfaceModel SurfaceProofs InterpProofs RefineModel RefineProofs.
From Coq Require Import ZifyBool ZifyNat Lqa Qround.
Local Open Scope Z_scope.

(** ** Regularised least squares *)
Section Ridge.
Context {T : Type}.
Variables (O : list T) (L : list nat) (phi : T -> nat -> Q) (r : T -> Q) (e : Q).
Hypothesis NL : NoDup L.
Hypothesis E0 : (0 <= e)%Q.
Definition lin (k : nat -> Q) (o : T) : Q := qsum (map (fun i => (phi o i * k i)%Q) L).
Definition loss (k : nat -> Q) : Q :=
  (qsum (map (fun o => (lin k o - r o) * (lin k o - r o)) O) + e * qsum (map (fun i => k i * k i) L))%Q.

Lemma qs_ext {A} (f g : A -> Q) l : (forall x, In x l -> (f x == g x)%Q) -> (qsum (map f l) == qsum (map g l))%Q.
Proof. induction l as [|a l IH]; intro H; [reflexivity|]. cbn [map]. rewrite !qsum_cons, (H a (or_introl eq_refl)), IH; [reflexivity|]. intros; apply H; now right. Qed.
Lemma qs_plus {A} (f g : A -> Q) l : (qsum (map (fun x => f x + g x) l) == qsum (map f l) + qsum (map g l))%Q.
Proof. induction l as [|a l IH]; [reflexivity|]. cbn [map]. rewrite !qsum_cons, IH. ring. Qed.
Lemma qs_scale {A} (f : A -> Q) c l : (qsum (map (fun x => c * f x) l) == c * qsum (map f l))%Q.
Proof. induction l as [|a l IH]; [cbn; ring|]. cbn [map]. rewrite !qsum_cons, IH. ring. Qed.
Lemma qs_zero {A} l : (qsum (map (fun _ : A => 0) l) == 0)%Q.
Proof. induction l as [|a l IH]; [reflexivity|]. cbn [map]. rewrite qsum_cons, IH. ring. Qed.
Lemma qs_swap {A B} (f : A -> B -> Q) l m :
  (qsum (map (fun a => qsum (map (f a) m)) l) == qsum (map (fun b => qsum (map (fun a => f a b) l)) m))%Q.
Proof.
  induction l as [|a l IH]; [cbn [map]; symmetry; apply qs_zero|]. cbn [map]. rewrite qsum_cons, IH, <- qs_plus.
  apply qs_ext. intros b _. now rewrite qsum_cons.
Qed.
Lemma qs_pos {A} (f : A -> Q) l : (forall x, (0 <= f x)%Q) -> (0 <= qsum (map f l))%Q.
Proof. intro H. induction l as [|a l IH]; [apply Qle_refl|]. cbn [map]. rewrite qsum_cons. specialize (H a). lra. Qed.
Lemma qs_pick (c : nat -> Q) i l : NoDup l -> In i l -> (qsum (map (fun j => (if Nat.eqb i j then e else 0) * c j) l) == e * c i)%Q.
Proof.
  induction l as [|a l IH]; intros N H; [destruct H|]. inversion N; subst. cbn [map]. rewrite qsum_cons.
  destruct (Nat.eqb_spec i a) as [->|NE].
  - rewrite (qs_ext _ (fun _ => 0%Q)); [rewrite qs_zero; ring|]. intros j Hj. destruct (Nat.eqb_spec a j); [subst; contradiction|ring].
  - destruct H as [H|H]; [congruence|]. rewrite IH by assumption. ring.
Qed.

Lemma lin_diff k y o : (lin y o == lin k o + lin (fun i => y i - k i) o)%Q.
Proof. unfold lin. rewrite <- qs_plus. apply qs_ext. intros i _. ring. Qed.

Definition normal_eq (k : nat -> Q) : Prop := forall i, In i L ->
  (qsum (map (fun j => (qsum (map (fun o => phi o i * phi o j) O) + (if Nat.eqb i j then e else 0)) * k j) L) ==
   qsum (map (fun o => phi o i * r o) O))%Q.

Lemma ridge k : normal_eq k -> forall y, (loss k <= loss y)%Q.
Proof.
  intros N y. set (d := fun i => (y i - k i)%Q).
  assert (CROSS : (qsum (map (fun o => (lin k o - r o) * lin d o) O) + e * qsum (map (fun i => k i * d i) L) == 0)%Q).
  { assert (S1 : (qsum (map (fun o => (lin k o - r o) * lin d o) O) ==
      qsum (map (fun i => d i * (qsum (map (fun o => phi o i * lin k o) O) - qsum (map (fun o => phi o i * r o) O))) L))%Q).
    { rewrite (qs_ext _ (fun o => qsum (map (fun i => (lin k o - r o) * (phi o i * d i)) L)))%Q
        by (intros o _; unfold lin at 2; now rewrite qs_scale).
      rewrite qs_swap. apply qs_ext. intros i _.
      rewrite <- qsum_map_minus, <- qs_scale. apply qs_ext. intros o _. ring. }
    rewrite S1, <- qs_scale, <- qs_plus. rewrite (qs_ext _ (fun _ => 0%Q)); [apply qs_zero|]. intros i Hi.
    assert (S2 : (qsum (map (fun o => phi o i * lin k o) O) + e * k i == qsum (map (fun o => phi o i * r o) O))%Q).
    { rewrite <- (N i Hi).
      rewrite (qs_ext (fun j => (qsum (map (fun o => phi o i * phi o j) O) + (if Nat.eqb i j then e else 0)) * k j)%Q
        (fun j => qsum (map (fun o => phi o i * phi o j) O) * k j + (if Nat.eqb i j then e else 0) * k j)%Q) by (intros j _; ring).
      rewrite qs_plus, (qs_pick k i L NL Hi).
      rewrite (qs_ext (fun o => phi o i * lin k o)%Q (fun o => qsum (map (fun j => phi o i * (phi o j * k j)) L))%Q)
        by (intros o _; unfold lin; now rewrite qs_scale).
      rewrite qs_swap. rewrite (qs_ext (fun b => qsum (map (fun o => phi o i * (phi o b * k b)) O))
        (fun j => qsum (map (fun o => phi o i * phi o j) O) * k j))%Q; [reflexivity|].
      intros j _. rewrite (Qmult_comm (qsum _)), <- qs_scale. apply qs_ext. intros o _. ring. }
    rewrite <- S2. ring. }
  assert (SQ : (loss y == loss k + 2 * (qsum (map (fun o => (lin k o - r o) * lin d o) O) + e * qsum (map (fun i => k i * d i) L)) +
     (qsum (map (fun o => lin d o * lin d o) O) + e * qsum (map (fun i => d i * d i) L)))%Q).
  { unfold loss.
    rewrite (qs_ext (fun o => (lin y o - r o) * (lin y o - r o))%Q
      (fun o => (lin k o - r o) * (lin k o - r o) + (2 * ((lin k o - r o) * lin d o) + lin d o * lin d o))%Q)
      by (intros o _; rewrite (lin_diff k y o); fold d; ring).
    rewrite (qs_ext (fun i => y i * y i)%Q (fun i => k i * k i + (2 * (k i * d i) + d i * d i))%Q)
      by (intros i _; unfold d; ring).
    rewrite !qs_plus, !qs_scale. ring. }
  rewrite SQ, CROSS.
  assert (P1 : (0 <= qsum (map (fun o => lin d o * lin d o) O))%Q) by (apply qs_pos; intro; nra).
  assert (P2 : (0 <= qsum (map (fun i => d i * d i) L))%Q) by (apply qs_pos; intro; nra).
  assert (P3 : (0 <= e * qsum (map (fun i => d i * d i) L))%Q) by (now apply Qmult_le_0_compat). lra.
Qed.
End Ridge.

(** ** The fitted polynomial *)
(** The second-degree polynomial with coefficients [k]. *)
Definition poly (k : nat -> Q) (x y z : Q) : Q :=
  (k 0%nat + k 1%nat * x + k 2%nat * y + k 3%nat * z + k 4%nat * (x * x) + k 5%nat * (y * y) + k 6%nat * (z * z)
   + k 7%nat * (x * y) + k 8%nat * (x * z) + k 9%nat * (y * z))%Q.
(** The Cartesian displacement of [d], [e], [f] voxels along the axes. *)
Definition displacement (nx ny nz : Z) (lattice : mat) (d e f : Z) : vec :=
  let '((a0, a1, a2), (b0, b1, b2), (c0, c1, c2)) := lattice in
  let p := (inject_Z d / inject_Z nx)%Q in let q := (inject_Z e / inject_Z ny)%Q in let s := (inject_Z f / inject_Z nz)%Q in
  (p * a0 + q * b0 + s * c0, p * a1 + q * b1 + s * c1, p * a2 + q * b2 + s * c2)%Q.
(** The squared misfit on the 27 voxels around [(a, b, c)], plus the squared coefficients times 1e-10. *)
Definition misfit (nx ny nz : Z) (grid : arr3 Q) (lattice : mat) (a b c : Z) (k : nat -> Q) : Q :=
  (qsum (map (fun '(d, e, f) => let '(x, y, z) := displacement nx ny nz lattice d e f in
           let r := poly k x y z - grid ((a + d) mod nx)%Z ((b + e) mod ny)%Z ((c + f) mod nz)%Z in r * r)
         (list_prod (list_prod [-1; 0; 1]%Z [-1; 0; 1]%Z) [-1; 0; 1]%Z))
   + (1 # 10000000000) * qsum (map (fun i => k i * k i) (seq 0 10)))%Q.

Lemma lin_poly nx ny nz lattice k o :
  let '(d, e, f) := o in let '(x, y, z) := displacement nx ny nz lattice d e f in
  (lin (seq 0 10) (row nx ny nz lattice) k o == poly k x y z)%Q.
Proof.
  destruct o as [[d e] f]. destruct lattice as [[[[a0 a1] a2] [[b0 b1] b2]] [[c0 c1] c2]]. unfold displacement, lin, row, off_cart, features, poly, Qdiv.
  generalize (/ inject_Z nx)%Q, (/ inject_Z ny)%Q, (/ inject_Z nz)%Q. intros.
  cbn [seq map nth]. rewrite !qsum_cons. cbn [qsum fold_right]. rewrite !Qred_correct. ring.
Qed.
Lemma misfit_loss nx ny nz grid lattice a b c k :
  (misfit nx ny nz grid lattice a b c k ==
   loss unit3 (seq 0 10) (row nx ny nz lattice) (region nx ny nz grid (a mod nx, b mod ny, c mod nz)) eps k)%Q.
Proof.
  unfold misfit, loss. apply Qplus_comp; [|reflexivity]. apply qs_ext. intros [[d e] f] _.
  pose proof (lin_poly nx ny nz lattice k (d, e, f)) as H. cbn beta iota in H. destruct (displacement nx ny nz lattice d e f) as [[x y] z].
  cbn zeta. rewrite H. unfold region. rewrite !Zplus_mod_idemp_l. reflexivity.
Qed.

(** The coefficients minimise the misfit; the offset is the stationary point of the polynomial (or nothing),
    shortened when it is longer than the largest step; the value is that of the polynomial there, and when one of
    the 27 voxels is higher the value of that voxel is returned with the position unchanged. *)
Theorem C27_fit : forall solve root nx ny nz grid lattice, sound solve ->
  forall fx fy fz gx gy gz v a b c, refine solve root nx ny nz grid lattice (fx, fy, fz) = Some ((gx, gy, gz), v) ->
  nearest_even (fx * inject_Z nx) a -> nearest_even (fy * inject_Z ny) b -> nearest_even (fz * inject_Z nz) c ->
  let '((a0, a1, a2), (b0, b1, b2), (c0, c1, c2)) := lattice in
  exists k x y z t p q s,
  (forall k', (misfit nx ny nz grid lattice a b c k <= misfit nx ny nz grid lattice a b c k')%Q) /\
  ((forall d e f, (poly k (x + d) (y + e) (z + f) == poly k (x - d) (y - e) (z - f))%Q) \/ (x, y, z) = (0, 0, 0)%Q) /\
  (let len := root (x * x + y * y + z * z)%Q in
   let step := fun '(r0, r1, r2) => root (r0 / inject_Z nx * (r0 / inject_Z nx) + r1 / inject_Z ny * (r1 / inject_Z ny) + r2 / inject_Z nz * (r2 / inject_Z nz))%Q in
   let rows := [(a0, a1, a2); (b0, b1, b2); (c0, c1, c2)] in
   (t = 1%Q /\ exists r, In r rows /\ (len <= step r)%Q) \/
   (exists r, In r rows /\ t = (step r / len)%Q /\ forall r', In r' rows -> (step r' <= step r < len)%Q)) /\
  gx = mod1 (fx + p) /\ gy = mod1 (fy + q) /\ gz = mod1 (fz + s) /\
  ((p * a0 + q * b0 + s * c0 == x * t /\ p * a1 + q * b1 + s * c1 == y * t /\ p * a2 + q * b2 + s * c2 == z * t /\
    v == poly k (x * t) (y * t) (z * t))%Q \/
   ((p == 0)%Q /\ (q == 0)%Q /\ (s == 0)%Q /\ (poly k (x * t) (y * t) (z * t) < v)%Q /\
    exists d e f, -1 <= d <= 1 /\ -1 <= e <= 1 /\ -1 <= f <= 1 /\ v = grid ((a + d) mod nx) ((b + e) mod ny) ((c + f) mod nz))).
Proof.
  intros solve root nx ny nz grid lattice SO fx fy fz gx gy gz v a b c H Ha Hb Hc. revert H. unfold refine.
  rewrite (nearest_even_fun _ _ _ _ (Qeq_refl _) (py_round_spec _) Ha), (nearest_even_fun _ _ _ _ (Qeq_refl _) (py_round_spec _) Hb), (nearest_even_fun _ _ _ _ (Qeq_refl _) (py_round_spec _) Hc).
  set (ce := (a mod nx, b mod ny, c mod nz)).
  destruct (solve 10%nat _ _) as [co|] eqn:E1; [|discriminate]. apply SO in E1 as (L1 & S1 & _).
  set (off0 := match solve 3%nat _ _ with Some x => as_vec x | None => _ end). cbn zeta.
  set (k := fun i => nth i co 0%Q) in *.
  assert (MIN : forall k', (misfit nx ny nz grid lattice a b c k <= misfit nx ny nz grid lattice a b c k')%Q).
  { intro k'. rewrite !misfit_loss. apply ridge; [apply seq_NoDup|discriminate|]. intros i Hi. apply in_seq in Hi. exact (S1 i ltac:(lia)). }
  assert (FIT : forall x y z, (fitted co (x, y, z) == poly k x y z)%Q) by (intros; unfold fitted, poly, k; ring).
  assert (ST : let '(x, y, z) := off0 in (forall d e f, (poly k (x + d) (y + e) (z + f) == poly k (x - d) (y - e) (z - f))%Q) \/ (x, y, z) = (0, 0, 0)%Q).
  { unfold off0. match goal with |- context [match ?t with Some _ => _ | None => _ end] => destruct t as [x|] eqn:E2; [|now right] end.
    left. apply SO in E2 as (_ & S2 & _). pose proof (S2 0%nat ltac:(lia)) as T0. pose proof (S2 1%nat ltac:(lia)) as T1. pose proof (S2 2%nat ltac:(lia)) as T2.
    cbn [seq map qsum fold_right hessian] in T0, T1, T2. unfold gradient in T0, T1, T2.
    assert (F2 : (flip co * flip co == 1)%Q) by (unfold flip; destruct (Qltb _ _); reflexivity). clear S2. clear off0. generalize dependent (flip co). intros w T0 T1 T2 F2. unfold as_vec. cbv beta iota.
    revert T0 T1 T2. generalize (nth 0 x 0%Q) (nth 1 x 0%Q) (nth 2 x 0%Q). intros x0 x1 x2 T0 T1 T2.
    fold (k 1%nat) (k 2%nat) (k 3%nat) (k 4%nat) (k 5%nat) (k 6%nat) (k 7%nat) (k 8%nat) (k 9%nat) in *.
    assert (V0 : (2 * k 4%nat * x0 + k 7%nat * x1 + k 8%nat * x2 + k 1%nat == 0)%Q).
    { transitivity (w * w * (2 * k 4%nat * x0 + k 7%nat * x1 + k 8%nat * x2 + k 1%nat))%Q; [rewrite F2; ring|].
      transitivity (w * ((w * (2 * k 4%nat) * x0 + (w * k 7%nat * x1 + (w * k 8%nat * x2 + 0))) + w * k 1%nat))%Q; [ring|]. rewrite T0. ring. }
    assert (V1 : (k 7%nat * x0 + 2 * k 5%nat * x1 + k 9%nat * x2 + k 2%nat == 0)%Q).
    { transitivity (w * w * (k 7%nat * x0 + 2 * k 5%nat * x1 + k 9%nat * x2 + k 2%nat))%Q; [rewrite F2; ring|].
      transitivity (w * ((w * k 7%nat * x0 + (w * (2 * k 5%nat) * x1 + (w * k 9%nat * x2 + 0))) + w * k 2%nat))%Q; [ring|]. rewrite T1. ring. }
    assert (V2 : (k 8%nat * x0 + k 9%nat * x1 + 2 * k 6%nat * x2 + k 3%nat == 0)%Q).
    { transitivity (w * w * (k 8%nat * x0 + k 9%nat * x1 + 2 * k 6%nat * x2 + k 3%nat))%Q; [rewrite F2; ring|].
      transitivity (w * ((w * k 8%nat * x0 + (w * k 9%nat * x1 + (w * (2 * k 6%nat) * x2 + 0))) + w * k 3%nat))%Q; [ring|]. rewrite T2. ring. }
    intros d e f. unfold poly.
    match goal with |- (?l == ?r)%Q => transitivity (r + 2 * d * (2 * k 4%nat * x0 + k 7%nat * x1 + k 8%nat * x2 + k 1%nat) + 2 * e * (k 7%nat * x0 + 2 * k 5%nat * x1 + k 9%nat * x2 + k 2%nat)
      + 2 * f * (k 8%nat * x0 + k 9%nat * x1 + 2 * k 6%nat * x2 + k 3%nat))%Q; [ring|rewrite V0, V1, V2; ring] end. }
  clear S1. destruct off0 as [[x y] z]. 
  destruct (fold_qmax (map (region nx ny nz grid ce) unit3) (region nx ny nz grid ce (-1, -1, -1))) as (_ & _ & M3).
  set (rm := fold_left qmax _ _) in *.
  assert (M3' : exists d e f, -1 <= d <= 1 /\ -1 <= e <= 1 /\ -1 <= f <= 1 /\ rm = grid ((a + d) mod nx) ((b + e) mod ny) ((c + f) mod nz)).
  { assert (M4 : exists o, In o unit3 /\ rm = region nx ny nz grid ce o).
    { destruct M3 as [M3|M3]; [exists (-1, -1, -1); split; [apply unit3_spec; lia|exact M3]|]. apply in_map_iff in M3 as (o & E & Ho). eauto. }
    destruct M4 as ([[d e] f] & Ho & E). apply unit3_spec in Ho as (A & B & C). exists d, e, f. do 3 (split; [assumption|]). rewrite E. unfold region, ce. now rewrite !Zplus_mod_idemp_l. }
  clear M3. clearbody rm.
  destruct lattice as [[[[a0 a1] a2] [[b0 b1] b2]] [[c0 c1] c2]] eqn:EL.
  set (step := fun '(r0, r1, r2) => root (r0 / inject_Z nx * (r0 / inject_Z nx) + r1 / inject_Z ny * (r1 / inject_Z ny) + r2 / inject_Z nz * (r2 / inject_Z nz))%Q).
  set (rows := [(a0, a1, a2); (b0, b1, b2); (c0, c1, c2)]).
  set (len := root (x * x + y * y + z * z)%Q).
  assert (MS : exists r, In r rows /\ max_step root nx ny nz ((a0, a1, a2), (b0, b1, b2), (c0, c1, c2)) = step r /\ forall r', In r' rows -> (step r' <= step r)%Q).
  { change (max_step root nx ny nz (a0, a1, a2, (b0, b1, b2), (c0, c1, c2))) with (qmax (qmax (step (a0, a1, a2)) (step (b0, b1, b2))) (step (c0, c1, c2))).
    unfold rows. generalize (a0, a1, a2) (b0, b1, b2) (c0, c1, c2). intros u1 u2 u3. unfold qmax.
    destruct (Qltb (step u1) (step u2)) eqn:C1; match goal with |- context [Qltb ?u ?w] => destruct (Qltb u w) eqn:C2 end;
      (apply Qltb_lt in C1 || apply Qltb_ge in C1); (apply Qltb_lt in C2 || apply Qltb_ge in C2);
      [exists u3|exists u2|exists u3|exists u1]; (split; [cbn; tauto|split; [reflexivity|intros r' [<-|[<-|[<-|[]]]]; clear - C1 C2; clearbody step; lra]]). }
  destruct MS as (r & Hr & EM & MX).
  match goal with |- context [Qltb (max_step ?r ?x ?y ?z ?l) _] => set (ms := max_step r x y z l) in * end.
  change (ms = step r) in EM. clearbody ms. subst ms.
  change (root (sq_norm (x, y, z))) with len.
  set (t := if Qltb (step r) len then (step r / len)%Q else 1%Q).
  assert (TT : (t = 1%Q /\ exists r, In r rows /\ (len <= step r)%Q) \/
   (exists r, In r rows /\ t = (step r / len)%Q /\ forall r', In r' rows -> (step r' <= step r < len)%Q)).
  { unfold t. destruct (Qltb (step r) len) eqn:C; [apply Qltb_lt in C|apply Qltb_ge in C].
    - right. exists r. split; [exact Hr|]. split; [reflexivity|]. intros r' Hr'. split; [now apply MX|exact C].
    - left. split; [reflexivity|]. exists r. split; [exact Hr|exact C]. }
  set (off := if Qltb (step r) len then _ else _).
  assert (OFF : let '(u1, u2, u3) := off in (u1 == x * t /\ u2 == y * t /\ u3 == z * t)%Q).
  { unfold off, t. destruct (Qltb (step r) len); cbn [scale]; repeat split; ring. }
  clearbody off. destruct off as [[u1 u2] u3]. destruct OFF as (O1 & O2 & O3).
  assert (FO : (fitted co (u1, u2, u3) == poly k (x * t) (y * t) (z * t))%Q) by (rewrite FIT; unfold poly; rewrite O1, O2, O3; reflexivity).
  clearbody t. 
  assert (G : forall w1 w2 w3 w, match solve 3%nat (fun i j => nth j (nth i [[a0; b0; c0]; [a1; b1; c1]; [a2; b2; c2]] []) 0%Q) (fun i => nth i [w1; w2; w3] 0%Q) with
      | None => None
      | Some fo => Some ((mod1 (fx + nth 0 fo 0), mod1 (fy + nth 1 fo 0), mod1 (fz + nth 2 fo 0))%Q, w)
      end = Some (gx, gy, gz, v) -> exists p q s, v = w /\ gx = mod1 (fx + p) /\ gy = mod1 (fy + q) /\ gz = mod1 (fz + s) /\
        (p * a0 + q * b0 + s * c0 == w1)%Q /\ (p * a1 + q * b1 + s * c1 == w2)%Q /\ (p * a2 + q * b2 + s * c2 == w3)%Q /\
        ((w1 == 0)%Q -> (w2 == 0)%Q -> (w3 == 0)%Q -> (p == 0)%Q /\ (q == 0)%Q /\ (s == 0)%Q)).
  { intros w1 w2 w3 w. match goal with |- match ?t with Some _ => _ | None => _ end = _ -> _ => destruct t as [fo|] eqn:E3; [|discriminate] end.
    intros [= <- <- <- <-]. apply SO in E3 as (_ & S3 & U3). exists (nth 0 fo 0%Q), (nth 1 fo 0%Q), (nth 2 fo 0%Q). do 4 (split; [reflexivity|]).
    pose proof (S3 0%nat ltac:(lia)) as T0. pose proof (S3 1%nat ltac:(lia)) as T1. pose proof (S3 2%nat ltac:(lia)) as T2.
    cbn [seq map qsum fold_right nth] in T0, T1, T2.
    split; [rewrite <- T0; ring|]. split; [rewrite <- T1; ring|]. split; [rewrite <- T2; ring|]. intros Z1 Z2 Z3.
    assert (U : forall i, (i < 3)%nat -> (0 == nth i fo 0)%Q).
    { apply (U3 (fun _ => 0%Q)). intros i Hi. rewrite (qs_ext _ (fun _ => 0%Q)) by (intros; ring). rewrite qs_zero.
      assert (i = 0 \/ i = 1 \/ i = 2)%nat as [-> |[-> | ->]] by lia; cbn [nth]; symmetry; assumption. }
    split; [|split]; symmetry; apply U; lia. }
  destruct (Qltb (fitted co (u1, u2, u3)) rm) eqn:EV; intro H; apply G in H as (p & q & s & -> & -> & -> & -> & Q1 & Q2 & Q3 & Q0);
    exists k, x, y, z, t, p, q, s; (split; [exact MIN|]; split; [exact ST|]; split; [exact TT|]; do 3 (split; [reflexivity|])).
  - right. apply Qltb_lt in EV. destruct Q0 as (Z1 & Z2 & Z3); try reflexivity. do 3 (split; [assumption|]). split; [rewrite <- FO; exact EV|exact M3'].
  - left. rewrite Q1, Q2, Q3. repeat split; try assumption.
Qed.
Print Assumptions C27_fit.

(** On 10 - x^2 - y^2 - z^2, sampled around the origin of an 8 x 8 x 8 grid, that polynomial misses nothing, so only
    its coefficients count; a constant misses a lot. *)
Definition signed (i : Z) : Q := inject_Z (if i <? 4 then i else i - 8).
Definition dome (i j k : Z) : Q := (10 - signed i * signed i - signed j * signed j - signed k * signed k)%Q.
Example C27_ex_misfit :
  (misfit 8 8 8 dome ((8, 0, 0), (0, 8, 0), (0, 0, 8))%Q 0 0 0 (fun i => nth i [10; 0; 0; 0; -(1); -(1); -(1)] 0)%Q == 103 # 10000000000)%Q /\
  (18 < misfit 8 8 8 dome ((8, 0, 0), (0, 8, 0), (0, 0, 8))%Q 0 0 0 (fun i => nth i [8] 0)%Q)%Q.
Proof. split; vm_compute; reflexivity. Qed.
