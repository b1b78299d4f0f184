From Verif Require Import Base GridModel NeighSpec ChargeModel ChargeProofs NearModel NearSpec NearProofs SurfaceModel SurfaceProofs InterpProofs RefineModel.
From Coq Require Import ZifyBool ZifyNat Lqa Qround Setoid.
Local Open Scope Z_scope.

(** A solution of a linear system of [n] equations. *)
Definition solves (n : nat) (A : nat -> nat -> Q) (b : nat -> Q) (x : nat -> Q) : Prop :=
  forall i, (i < n)%nat -> (qsum (map (fun j => A i j * x j) (seq 0 n)) == b i)%Q.
(** A returned vector is the one and only solution (a singular matrix raises). *)
Definition sound (solve : nat -> (nat -> nat -> Q) -> (nat -> Q) -> option (list Q)) : Prop :=
  forall n A b x, solve n A b = Some x -> length x = n /\ solves n A b (fun i => nth i x 0%Q) /\
    forall y, solves n A b y -> forall i, (i < n)%nat -> (y i == nth i x 0)%Q.

Lemma qsum_map_minus {A} (f g : A -> Q) l : (qsum (map (fun x => f x - g x) l) == qsum (map f l) - qsum (map g l))%Q.
Proof. induction l as [|a l IH]; [reflexivity|]. cbn [map]. rewrite !qsum_cons, IH. ring. Qed.
Lemma mod1_range q : (0 <= mod1 q < 1)%Q.
Proof. unfold mod1. destruct (floor_split q) as (m & t & E & T & <-). split; lra. Qed.
Lemma mod1_comp p q : (p == q -> mod1 p == mod1 q)%Q.
Proof. intros E. unfold mod1. rewrite (Qfloor_comp p q E), E. reflexivity. Qed.
Lemma qmax_ge a b : (a <= qmax a b /\ b <= qmax a b)%Q.
Proof. unfold qmax. destruct (Qltb a b) eqn:E; [apply Qltb_lt in E|apply Qltb_ge in E]; split; lra. Qed.
Lemma fold_qmax l : forall m, (m <= fold_left qmax l m)%Q /\ (forall x, In x l -> (x <= fold_left qmax l m)%Q) /\ (fold_left qmax l m = m \/ In (fold_left qmax l m) l).
Proof.
  induction l as [|a l IH]; intros m; cbn [fold_left]; [repeat split; auto; [lra|intros x []]|].
  destruct (IH (qmax m a)) as (A & B & C). destruct (qmax_ge m a). split; [lra|]. split.
  - intros x [<-|H1]; [lra|auto].
  - destruct C as [C|C]; [rewrite C|right; now right]. unfold qmax. destruct (Qltb m a); [right; now left|now left].
Qed.
Lemma unit3_spec d e f : In (d, e, f) unit3 <-> -1 <= d <= 1 /\ -1 <= e <= 1 /\ -1 <= f <= 1.
Proof.
  unfold unit3. rewrite !in_prod_iff. cbn. lia.
Qed.

Section Refine.
Variable solve : nat -> (nat -> nat -> Q) -> (nat -> Q) -> option (list Q).
Variable root : Q -> Q.
Variables nx ny nz : Z.
Hypothesis Hx : 0 < nx.
Hypothesis Hy : 0 < ny.
Hypothesis Hz : 0 < nz.
Variable grid : arr3 Q.
Variable lattice : mat.
Hypothesis SOUND : sound solve.
(** The computed root is not below the true one. *)
Hypothesis ROOT : forall q, (0 <= q)%Q -> (0 <= root q)%Q /\ (q <= root q * root q)%Q.

Notation refine := (refine solve root nx ny nz grid lattice).
Notation region := (region nx ny nz grid).
Notation row := (row nx ny nz lattice).
Notation max_step := (max_step root nx ny nz lattice).
Notation centre f := (py_round (fst (fst f) * inject_Z nx) mod nx, py_round (snd (fst f) * inject_Z ny) mod ny, py_round (snd f * inject_Z nz) mod nz).

Lemma sq_norm_pos v : (0 <= sq_norm v)%Q.
Proof. destruct v as [[x y] z]. cbn. pose proof (sq_pos x). pose proof (sq_pos y). pose proof (sq_pos z). lra. Qed.
Lemma clamp_bound off : let norm := root (sq_norm off) in
  (sq_norm (if Qltb max_step norm then scale (max_step / norm) off else off) <= max_step * max_step)%Q.
Proof.
  intros norm. destruct (ROOT (sq_norm off) (sq_norm_pos off)) as [R1 R2]. fold norm in R1, R2.
  assert (M : (0 <= max_step)%Q).
  { unfold RefineModel.max_step. destruct lattice as [[a b] c]. destruct (qmax_ge (root (step_sq nx ny nz a)) (root (step_sq nx ny nz b))). destruct (qmax_ge (qmax (root (step_sq nx ny nz a)) (root (step_sq nx ny nz b))) (root (step_sq nx ny nz c))).
    assert (0 <= root (step_sq nx ny nz a))%Q. { apply ROOT. unfold step_sq. destruct a as [[? ?] ?]. apply sq_norm_pos. } lra. }
  generalize dependent max_step. intros ms M. destruct (Qltb ms norm) eqn:E; [apply Qltb_lt in E|apply Qltb_ge in E].
  - assert (NP : (0 < norm)%Q) by lra.
    assert (S : (sq_norm (scale (ms / norm) off) == sq_norm off * (ms / norm) * (ms / norm))%Q) by (destruct off as [[x y] z]; cbn; ring).
    rewrite S. assert (T : (sq_norm off * (ms / norm) * (ms / norm) == sq_norm off / (norm * norm) * (ms * ms))%Q) by (field; lra). rewrite T.
    assert (U : (sq_norm off / (norm * norm) <= 1)%Q) by (apply Qle_shift_div_r; [nra|lra]).
    assert (0 <= ms * ms)%Q by nra. nra.
  - nra.
Qed.

(** The fit: value, offset and position. *)
Theorem refine_spec f r : refine f = Some r ->
  exists co off fo, let '(ox, oy, oz) := off in
  let '((a0, a1, a2), (b0, b1, b2), (c0, c1, c2)) := lattice in let '(p, q, s) := fo in
  solves 10 (normal_matrix nx ny nz lattice) (normal_rhs nx ny nz grid lattice (centre f)) (fun i => nth i co 0%Q) /\
  (sq_norm off <= max_step * max_step)%Q /\
  (p * a0 + q * b0 + s * c0 == ox)%Q /\ (p * a1 + q * b1 + s * c1 == oy)%Q /\ (p * a2 + q * b2 + s * c2 == oz)%Q /\
  fst r = (mod1 (fst (fst f) + p), mod1 (snd (fst f) + q), mod1 (snd f + s))%Q /\
  (snd r = fitted co off \/ (off = (0, 0, 0)%Q /\ exists o, In o unit3 /\ snd r = region (centre f) o)) /\
  (forall o, In o unit3 -> (region (centre f) o <= snd r)%Q).
Proof.
  destruct f as [[fx fy] fz]. cbn [fst snd]. unfold RefineModel.refine. set (c := (_, _, _) : Z * Z * Z).
  destruct (solve 10 _ _) as [co|] eqn:E1; [|discriminate]. apply SOUND in E1 as (L1 & S1 & U1).
  set (off0 := match solve 3 _ _ with Some x => as_vec x | None => _ end). cbn zeta.
  pose proof (clamp_bound off0) as CB. cbn zeta in CB. set (off := if Qltb max_step (root (sq_norm off0)) then _ else off0) in *.
  set (rm := fold_left qmax _ _). destruct (fold_qmax (map (region c) unit3) (region c (-1, -1, -1))) as (M1 & M2 & M3). fold rm in M1, M2, M3.
  assert (M3' : exists o, In o unit3 /\ rm = region c o).
  { destruct M3 as [M3|M3]; [exists (-1, -1, -1); split; [apply unit3_spec; lia|exact M3]|]. apply in_map_iff in M3 as (o & E & Ho). eauto. }
  assert (MS : (0 <= max_step * max_step)%Q) by apply sq_pos.
  destruct lattice as [[[[a0 a1] a2] [[b0 b1] b2]] [[c0 c1] c2]] eqn:EL. rewrite <- EL in *.
  assert (G : forall v off', (v = fitted co off' \/ (off' = (0, 0, 0)%Q /\ exists o, In o unit3 /\ v = region c o)) -> (rm <= v)%Q -> (sq_norm off' <= max_step * max_step)%Q ->
    (let '(ox, oy, oz) := off' in match solve 3 (fun i j => nth j (nth i [[a0; b0; c0]; [a1; b1; c1]; [a2; b2; c2]] []) 0%Q) (fun i => nth i [ox; oy; oz] 0%Q) with
      | None => None
      | Some fo => Some ((mod1 (fx + nth 0 fo 0), mod1 (fy + nth 1 fo 0), mod1 (fz + nth 2 fo 0))%Q, v)
      end) = Some r ->
    exists co off fo, let '(ox, oy, oz) := off in let '(p, q, s) := fo in
  solves 10 (normal_matrix nx ny nz lattice) (normal_rhs nx ny nz grid lattice c) (fun i => nth i co 0%Q) /\
  (sq_norm off <= max_step * max_step)%Q /\
  (p * a0 + q * b0 + s * c0 == ox)%Q /\ (p * a1 + q * b1 + s * c1 == oy)%Q /\ (p * a2 + q * b2 + s * c2 == oz)%Q /\
  fst r = (mod1 (fx + p), mod1 (fy + q), mod1 (fz + s))%Q /\
  (snd r = fitted co off \/ (off = (0, 0, 0)%Q /\ exists o, In o unit3 /\ snd r = region c o)) /\
  (forall o, In o unit3 -> (region c o <= snd r)%Q)).
  { intros v [[ox oy] oz] Hv Hrm Hoff. match goal with |- match ?t with Some _ => _ | None => _ end = _ -> _ => destruct t as [fo|] eqn:E3; [|discriminate] end. intros [= <-]. apply SOUND in E3 as (_ & S3 & _).
    exists co, (ox, oy, oz), (nth 0 fo 0, nth 1 fo 0, nth 2 fo 0)%Q. cbn [fst snd].
    pose proof (S3 0%nat ltac:(lia)) as T0. pose proof (S3 1%nat ltac:(lia)) as T1. pose proof (S3 2%nat ltac:(lia)) as T2.
    cbn [seq map qsum fold_right nth] in T0, T1, T2.
    split; [exact S1|]. split; [exact Hoff|]. split; [rewrite <- T0; ring|]. split; [rewrite <- T1; ring|]. split; [rewrite <- T2; ring|]. split; [reflexivity|]. split; [exact Hv|].
    intros o Ho. specialize (M2 (region c o) (in_map _ _ _ Ho)). lra. }
  destruct (Qltb (fitted co off) rm) eqn:EV.
  - intros H. apply (G rm (0, 0, 0)%Q); [right; split; [reflexivity|exact M3']|lra|cbn; lra|exact H].
  - apply Qltb_ge in EV. intros H. apply (G (fitted co off) off); [now left|exact EV|exact CB|exact H].
Qed.

(** ** Inversion symmetric neighbourhoods *)
Definition sgn (i : nat) : Q := match i with 1%nat | 2%nat | 3%nat => (-(1))%Q | _ => 1%Q end.
Definition neg3 (o : Z * Z * Z) : Z * Z * Z := let '(a, b, c) := o in (- a, - b, - c).
Lemma neg3_unit : map neg3 unit3 = rev unit3.
Proof. reflexivity. Qed.
Lemma sum_neg3 (F : Z * Z * Z -> Q) : (qsum (map (fun o => F (neg3 o)) unit3) == qsum (map F unit3))%Q.
Proof.
  rewrite <- (map_map neg3 F), neg3_unit, map_rev. apply qsum_perm. symmetry. apply Permutation_rev.
Qed.
Lemma off_neg o : let '(x, y, z) := off_cart nx ny nz lattice o in let '(x', y', z') := off_cart nx ny nz lattice (neg3 o) in (x' == - x /\ y' == - y /\ z' == - z)%Q.
Proof.
  destruct o as [[a b] c]. unfold off_cart. cbn [neg3]. destruct lattice as [[[[a0 a1] a2] [[b0 b1] b2]] [[c0 c1] c2]]. rewrite !inject_Z_opp.
  generalize (1 / inject_Z nx)%Q, (1 / inject_Z ny)%Q, (1 / inject_Z nz)%Q. intros. repeat split; rewrite !Qred_correct; ring.
Qed.
Lemma row_neg o i : (row (neg3 o) i == sgn i * row o i)%Q.
Proof.
  unfold RefineModel.row. pose proof (off_neg o) as H. destruct (off_cart nx ny nz lattice o) as [[x y] z], (off_cart nx ny nz lattice (neg3 o)) as [[x' y'] z'].
  destruct H as (A & B & C). unfold features.
  do 10 (destruct i as [|i]; [cbn [nth sgn]; rewrite ?A, ?B, ?C; ring|]). cbn [nth]. destruct i; cbn [sgn]; ring.
Qed.

Lemma normal_unique x b : (forall i, (i < 10)%nat -> (b i == 0)%Q) -> solves 10 (normal_matrix nx ny nz lattice) b x -> forall i, (i < 10)%nat -> (x i == 0)%Q.
Proof.
  intros B S.
  (* the quadratic form *)
  assert (K : (qsum (map (fun i => x i * qsum (map (fun j => normal_matrix nx ny nz lattice i j * x j) (seq 0 10))) (seq 0 10)) == 0)%Q).
  { rewrite (qsum_map_ext _ (fun _ => 0%Q)); [apply qsum_map_zero|]. intros i Hi. apply in_seq in Hi. pose proof (S i ltac:(lia)) as E. rewrite E. pose proof (B i ltac:(lia)) as E0. rewrite E0. ring. }
  assert (F : (qsum (map (fun i => x i * qsum (map (fun j => normal_matrix nx ny nz lattice i j * x j) (seq 0 10))) (seq 0 10)) ==
     qsum (map (fun o => qsum (map (fun i => row o i * x i) (seq 0 10)) * qsum (map (fun i => row o i * x i) (seq 0 10))) unit3) + eps * qsum (map (fun i => x i * x i) (seq 0 10)))%Q).
  { transitivity (qsum (map (fun i => qsum (map (fun o => row o i * x i * qsum (map (fun j => row o j * x j) (seq 0 10))) unit3) + eps * (x i * x i)) (seq 0 10)))%Q.
    - apply qsum_map_ext. intros i Hi. transitivity (x i * (qsum (map (fun o => row o i * qsum (map (fun j => row o j * x j) (seq 0 10))) unit3) + eps * x i))%Q.
      + apply Qmult_comp; [reflexivity|]. transitivity (qsum (map (fun j => qsum (map (fun o => row o i * (row o j * x j)) unit3) + (if Nat.eqb i j then eps * x j else 0)) (seq 0 10)))%Q.
        * apply qsum_map_ext. intros j _. unfold normal_matrix. rewrite Qmult_plus_distr_l. apply Qplus_comp.
          { rewrite Qmult_comm, <- qsum_map_scale. apply qsum_map_ext. intros o _. ring. }
          { destruct (Nat.eqb i j); ring. }
        * rewrite qsum_map_plus. apply Qplus_comp.
          { rewrite qsum_swap. apply qsum_map_ext. intros o _. rewrite qsum_map_scale. reflexivity. }
          { apply in_seq in Hi. clear - Hi. assert (C : (i = 0 \/ i = 1 \/ i = 2 \/ i = 3 \/ i = 4 \/ i = 5 \/ i = 6 \/ i = 7 \/ i = 8 \/ i = 9)%nat) by lia.
            destruct C as [->|[->|[->|[->|[->|[->|[->|[->|[->| ->]]]]]]]]]; cbn [seq map qsum fold_right Nat.eqb]; ring. }
      + rewrite Qmult_plus_distr_r. apply Qplus_comp; [|ring]. rewrite <- qsum_map_scale. apply qsum_map_ext. intros o _. ring.
    - rewrite qsum_map_plus. apply Qplus_comp; [|apply qsum_map_scale]. rewrite qsum_swap. apply qsum_map_ext. intros o _.
      set (w := qsum (map (fun i => (row o i * x i)%Q) (seq 0 10))). transitivity (qsum (map (fun i => w * (row o i * x i))%Q (seq 0 10))); [apply qsum_map_ext; intros i _; ring|]. apply qsum_map_scale. }
  rewrite F in K. clear F.
  assert (P1 : (0 <= qsum (map (fun o => qsum (map (fun i => row o i * x i) (seq 0 10)) * qsum (map (fun i => row o i * x i) (seq 0 10))) unit3))%Q).
  { apply qsum_nonneg. intros q Hq. apply in_map_iff in Hq as (o & <- & _). apply sq_pos. }
  assert (P2 : (qsum (map (fun i => x i * x i) (seq 0 10)) <= 0)%Q).
  { assert (0 < eps)%Q by reflexivity. generalize dependent (qsum (map (fun i => x i * x i) (seq 0 10)))%Q. intros. nra. }
  intros i Hi. assert (X : (x i * x i <= 0)%Q).
  { apply Qle_trans with (2 := P2). apply (qsum_ge_elem (map (fun i => x i * x i)%Q (seq 0 10))).
    - intros q Hq. apply in_map_iff in Hq as (o & <- & _). apply sq_pos.
    - apply (in_map (fun i => x i * x i)%Q). apply in_seq. lia. }
  pose proof (sq_pos (x i)). assert (E : (x i * x i == 0)%Q) by lra. apply Qmult_integral in E. tauto.
Qed.

Lemma grad_zero co c : solves 10 (normal_matrix nx ny nz lattice) (normal_rhs nx ny nz grid lattice c) (fun i => nth i co 0%Q) ->
  (forall o, In o unit3 -> (region c (neg3 o) == region c o)%Q) -> forall i, (i < 3)%nat -> (gradient co i == 0)%Q.
Proof.
  intros S SYM. set (x := fun i => nth i co 0%Q) in *.
  assert (NS : forall i j, (normal_matrix nx ny nz lattice i j == sgn i * sgn j * normal_matrix nx ny nz lattice i j)%Q).
  { intros i j. assert (E1 : (qsum (map (fun o => row o i * row o j) unit3) == sgn i * sgn j * qsum (map (fun o => row o i * row o j) unit3))%Q).
    { etransitivity; [symmetry; apply (sum_neg3 (fun o => row o i * row o j)%Q)|]. rewrite <- qsum_map_scale. apply qsum_map_ext. intros o _. rewrite !row_neg. ring. }
    unfold normal_matrix. destruct (Nat.eqb i j) eqn:E.
    - apply Nat.eqb_eq in E. subst j. assert (SS : (sgn i * sgn i == 1)%Q) by (destruct i as [|[|[|[|i]]]]; reflexivity). rewrite SS. ring.
    - rewrite E1 at 1. ring. }
  assert (RS : forall i, (normal_rhs nx ny nz grid lattice c i == sgn i * normal_rhs nx ny nz grid lattice c i)%Q).
  { intros i. unfold normal_rhs. etransitivity; [symmetry; apply (sum_neg3 (fun o => row o i * region c o)%Q)|]. rewrite <- qsum_map_scale. apply qsum_map_ext. intros o Ho. rewrite row_neg, (SYM o Ho). ring. }
  assert (Z0 : forall i, (i < 10)%nat -> (x i - sgn i * x i == 0)%Q).
  { apply (normal_unique (fun i => x i - sgn i * x i)%Q (fun i => normal_rhs nx ny nz grid lattice c i - sgn i * normal_rhs nx ny nz grid lattice c i)%Q).
    - intros i _. rewrite <- RS. ring.
    - intros i Hi. pose proof (S i Hi) as E. rewrite <- E. clear E. rewrite <- qsum_map_scale, <- qsum_map_minus. apply qsum_map_ext. intros j _.
      assert (SJ : (sgn j * sgn j == 1)%Q) by (destruct j as [|[|[|[|?]]]]; reflexivity). pose proof (NS i j) as NE. generalize dependent (normal_matrix nx ny nz lattice i j). intros m NE.
      assert (NE2 : (m * sgn j == sgn i * m)%Q). { rewrite NE at 1. transitivity (sgn i * m * (sgn j * sgn j))%Q; [ring|rewrite SJ; ring]. }
      transitivity (m * x j - (m * sgn j) * x j)%Q; [ring|]. rewrite NE2. ring. }
  intros i Hi. unfold gradient. specialize (Z0 (Datatypes.S i) ltac:(lia)). assert (i = 0 \/ i = 1 \/ i = 2)%nat as [-> |[-> | ->]] by lia; unfold x, sgn in Z0; lra.
Qed.
Theorem refine_symmetric f r : refine f = Some r ->
  (forall o, In o unit3 -> (region (centre f) (neg3 o) == region (centre f) o)%Q) ->
  let '(gx, gy, gz) := fst r in (gx == mod1 (fst (fst f)) /\ gy == mod1 (snd (fst f)) /\ gz == mod1 (snd f))%Q.
Proof.
  clear ROOT.
  destruct f as [[fx fy] fz]. cbn [fst snd]. unfold RefineModel.refine. set (c := (_, _, _) : Z * Z * Z). intros H SYM. revert H.
  destruct (solve 10 _ _) as [co|] eqn:E1; [|discriminate]. apply SOUND in E1 as (L1 & S1 & U1).
  pose proof (grad_zero co c S1 SYM) as GZ. clear S1 U1.
  set (off0 := match solve 3 _ _ with Some x => as_vec x | None => _ end). cbn zeta.
  assert (O0 : let '(x, y, z) := off0 in (x == 0 /\ y == 0 /\ z == 0)%Q).
  { unfold off0. match goal with |- context [match ?t with Some _ => _ | None => _ end] => destruct t as [x|] eqn:E2; [|repeat split; reflexivity] end.
    apply SOUND in E2 as (_ & _ & U). assert (S0 : forall i, (i < 3)%nat -> (0 == nth i x 0)%Q).
    { apply (U (fun _ => 0%Q)). intros i Hi. rewrite (GZ i Hi). rewrite (qsum_map_ext _ (fun _ => 0%Q)); [rewrite qsum_map_zero; ring|]. intros; ring. }
    unfold as_vec. repeat split; symmetry; apply S0; lia. }
  destruct off0 as [[o1 o2] o3]. destruct O0 as (O1 & O2 & O3).
  set (off := if Qltb max_step _ then _ else _). 
  assert (O : let '(x, y, z) := off in (x == 0 /\ y == 0 /\ z == 0)%Q).
  { unfold off. destruct (Qltb _ _); cbn [scale]; [generalize (max_step / root (sq_norm (o1, o2, o3)))%Q; intros w; repeat split; [rewrite O1|rewrite O2|rewrite O3]; ring|auto]. }
  clearbody off. set (rm := fold_left qmax _ _). clearbody rm.
  destruct lattice as [[[[a0 a1] a2] [[b0 b1] b2]] [[c0 c1] c2]] eqn:EL.
  assert (G : forall v off', (let '(x, y, z) := off' in (x == 0 /\ y == 0 /\ z == 0)%Q) ->
    (let '(ox, oy, oz) := off' in match solve 3 (fun i j => nth j (nth i [[a0; b0; c0]; [a1; b1; c1]; [a2; b2; c2]] []) 0%Q) (fun i => nth i [ox; oy; oz] 0%Q) with
      | None => None
      | Some fo => Some ((mod1 (fx + nth 0 fo 0), mod1 (fy + nth 1 fo 0), mod1 (fz + nth 2 fo 0))%Q, v)
      end) = Some r -> let '(gx, gy, gz) := fst r in (gx == mod1 fx /\ gy == mod1 fy /\ gz == mod1 fz)%Q).
  { intros v [[ox oy] oz] (X & Y & Z). match goal with |- match ?t with Some _ => _ | None => _ end = _ -> _ => destruct t as [fo|] eqn:E3; [|discriminate] end.
    intros [= <-]. cbn [fst]. apply SOUND in E3 as (_ & _ & U). assert (S0 : forall i, (i < 3)%nat -> (0 == nth i fo 0)%Q).
    { apply (U (fun _ => 0%Q)). intros i Hi. rewrite (qsum_map_ext _ (fun _ => 0%Q)); [rewrite qsum_map_zero|intros; ring].
      assert (i = 0 \/ i = 1 \/ i = 2)%nat as [-> |[-> | ->]] by lia; cbn [nth]; symmetry; assumption. }
    repeat split; apply mod1_comp; rewrite <- S0 by lia; ring. }
  destruct (Qltb (fitted co off) rm).
  - intros K. apply (G rm (0, 0, 0)%Q); [repeat split; reflexivity|exact K].
  - intros K. exact (G (fitted co off) off O K).
Qed.
End Refine.

(** ** A solver: Gaussian elimination in exact arithmetic *)
Notation eqn := (list Q * Q)%type.
Fixpoint dot (a x : list Q) : Q := match a, x with u :: a', v :: x' => (u * v + dot a' x')%Q | _, _ => 0%Q end.
Fixpoint lsub (a : list Q) (w : Q) (b : list Q) : list Q :=
  match a, b with u :: a', v :: b' => (Qred (u - w * v))%Q :: lsub a' w b' | _, _ => a end.
Definition hd0 (e : eqn) : Q := match fst e with u :: _ => u | [] => 0%Q end.
Fixpoint pivot (es : list eqn) : option (eqn * list eqn) :=
  match es with
  | [] => None
  | e :: es' => if Qeq_bool (hd0 e) 0 then match pivot es' with Some (p, r) => Some (p, e :: r) | None => None end else Some (e, es')
  end.
Definition elim (p e : eqn) : eqn :=
  let w := Qred (hd0 e / hd0 p)%Q in (lsub (tl (fst e)) w (tl (fst p)), Qred (snd e - w * snd p)%Q).
Fixpoint gauss (n : nat) (es : list eqn) : option (list Q) :=
  match n with
  | O => Some []
  | S n' => match pivot es with
            | None => None
            | Some (p, r) => match gauss n' (map (elim p) r) with
                             | None => None
                             | Some xs => Some (Qred ((snd p - dot (tl (fst p)) xs) / hd0 p)%Q :: xs)
                             end
            end
  end.
Definition np_solve (n : nat) (A : nat -> nat -> Q) (b : nat -> Q) : option (list Q) :=
  gauss n (map (fun i => (map (A i) (seq 0 n), b i)) (seq 0 n)).

Definition sat (x : list Q) (e : eqn) : Prop := (dot (fst e) x == snd e)%Q.
Lemma lsub_dot a w b x : length a = length x -> length b = length x -> (dot (lsub a w b) x == dot a x - w * dot b x)%Q.
Proof.
  revert b x. induction a as [|u a IH]; intros [|v b] [|y x] La Lb; cbn [lsub dot length] in *; try lia; [ring|].
  rewrite IH by lia. rewrite Qred_correct. ring.
Qed.
Lemma lsub_length a w b : length b = length a -> length (lsub a w b) = length a.
Proof. revert b. induction a as [|u a IH]; intros [|v b] L; cbn in *; try lia. rewrite IH; lia. Qed.
Lemma pivot_spec es p r : pivot es = Some (p, r) -> ~ (hd0 p == 0)%Q /\ Permutation es (p :: r).
Proof.
  revert p r. induction es as [|e es IH]; intros p r H; cbn in H; [discriminate|]. destruct (Qeq_bool (hd0 e) 0) eqn:E.
  - destruct (pivot es) as [[p' r']|]; [|discriminate]. injection H as <- <-. destruct (IH _ _ eq_refl) as [A B]. split; [exact A|]. rewrite B. constructor.
  - injection H as <- <-. split; [now apply Qeq_bool_neq|reflexivity].
Qed.
Local Opaque Qred.
Lemma gauss_spec n : forall es x, length es = n -> (forall e, In e es -> length (fst e) = n) -> gauss n es = Some x ->
  length x = n /\ (forall e, In e es -> sat x e) /\ forall y, length y = n -> (forall e, In e es -> sat y e) -> forall i, (i < n)%nat -> (nth i y 0 == nth i x 0)%Q.
Proof.
  induction n as [|n IH]; intros es x L W H; cbn [gauss] in H.
  - injection H as <-. destruct es; [|discriminate]. split; [reflexivity|]. split; [intros e []|]. intros; lia.
  - destruct (pivot es) as [[p r]|] eqn:EP; [|discriminate]. apply pivot_spec in EP as [NZ P].
    destruct (gauss n (map (elim p) r)) as [xs|] eqn:EG; [|discriminate]. injection H as <-.
    assert (LP : length (fst p) = S n) by (apply W; rewrite P; now left).
    assert (LR : forall e, In e r -> length (fst e) = S n) by (intros e He; apply W; rewrite P; now right).
    assert (SH : forall e, length (fst e) = S n -> exists t, fst e = hd0 e :: t /\ tl (fst e) = t /\ length t = n).
    { intros [[|u t] v] Le; cbn in *; [lia|]. exists t. repeat split. lia. }
    destruct (SH p LP) as (tp & Ep & Etp & Ltp).
    assert (LM : length (map (elim p) r) = n) by (rewrite map_length; pose proof (Permutation_length P) as PL; cbn [length] in PL; rewrite L in PL; now injection PL as ->).
    assert (WM : forall e, In e (map (elim p) r) -> length (fst e) = n).
    { intros e He. apply in_map_iff in He as (e0 & <- & He). destruct (SH e0 (LR e0 He)) as (te & _ & Ete & Lte). unfold elim. cbn [fst]. rewrite Ete, Etp, lsub_length; congruence. }
    destruct (IH _ _ LM WM EG) as (LX & SX & UX). clear IH LM WM.
    assert (EQ : forall e ys y0, In e r -> length ys = n -> sat (y0 :: ys) p -> (sat (y0 :: ys) e <-> sat ys (elim p e))).
    { intros e ys y0 He Ly Sp. destruct (SH e (LR e He)) as (te & Ee & Ete & Lte). unfold sat in *. unfold elim. cbn [fst snd]. rewrite Ete, Etp. rewrite lsub_dot by congruence. rewrite Ee. rewrite Ep in Sp. cbn [dot] in *. rewrite !Qred_correct. rewrite <- Sp.
      assert (C : (hd0 e / hd0 p * hd0 p == hd0 e)%Q) by (field; exact NZ).
      split; intros K.
      - rewrite <- K. transitivity (hd0 e * y0 + dot te ys - (hd0 e / hd0 p * hd0 p) * y0 - hd0 e / hd0 p * dot tp ys)%Q; [rewrite C; ring|ring].
      - transitivity ((hd0 e / hd0 p * hd0 p) * y0 + dot te ys)%Q; [rewrite C; reflexivity|].
        transitivity ((hd0 e / hd0 p * hd0 p) * y0 + (dot te ys - hd0 e / hd0 p * dot tp ys) + hd0 e / hd0 p * dot tp ys)%Q; [ring|]. rewrite K. ring. }
    assert (SP : sat (Qred ((snd p - dot (tl (fst p)) xs) / hd0 p)%Q :: xs) p).
    { unfold sat. rewrite Ep at 1. cbn [dot]. rewrite Qred_correct, Etp. field. exact NZ. }
    split; [cbn; lia|]. split.
    + intros e He. rewrite P in He. destruct He as [<-|He]; [exact SP|]. apply (EQ e xs _ He LX SP). apply SX, in_map, He.
    + intros y Ly Sy i Hi. destruct y as [|y0 ys]; [discriminate|]. cbn in Ly.
      assert (Spy : sat (y0 :: ys) p) by (apply Sy; rewrite P; now left).
      assert (YX : forall i, (i < n)%nat -> (nth i ys 0 == nth i xs 0)%Q).
      { apply UX; [lia|]. intros e' He'. apply in_map_iff in He' as (e & <- & He). apply (EQ e ys y0 He); [lia|exact Spy|]. apply Sy. rewrite P. now right. }
      destruct i as [|i]; cbn [nth]; [|apply YX; lia].
      assert (D : (dot tp ys == dot tp xs)%Q).
      { clear - YX Ltp Ly LX. revert ys xs tp YX Ltp Ly LX. induction n as [|n IH]; intros [|a ys] [|b xs] [|c tp] Y A B C; cbn in *; try lia; try reflexivity.
        rewrite (Y 0%nat ltac:(lia)). rewrite (IH ys xs tp); [reflexivity|intros i Hi; apply (Y (S i)); lia|lia..]. }
      unfold sat in Spy. rewrite Ep in Spy. cbn [dot] in Spy. rewrite Qred_correct, Etp, <- D, <- Spy. field. exact NZ.
Qed.
Lemma dot_seq (f : nat -> Q) (y : nat -> Q) : forall l, (dot (map f l) (map y l) == qsum (map (fun j => f j * y j)%Q l))%Q.
Proof. induction l as [|a l IH]; [reflexivity|]. cbn [map dot]. rewrite qsum_cons, IH. reflexivity. Qed.
Theorem np_solve_sound : sound np_solve.
Proof.
  intros n A b x H. unfold np_solve in H. apply gauss_spec in H as (L & S & U); [|now rewrite map_length, seq_length|intros e He; apply in_map_iff in He as (i & <- & _); cbn [fst]; now rewrite map_length, seq_length].
  assert (NX : map (fun i => nth i x 0%Q) (seq 0 n) = x).
  { rewrite <- L. clear. induction x as [|a x IH]; [reflexivity|]. cbn [length seq map nth]. f_equal. rewrite <- seq_shift, map_map. exact IH. }
  split; [exact L|]. split.
  - intros i Hi. specialize (S (map (A i) (seq 0 n), b i)). unfold sat in S. cbn [fst snd] in S. rewrite <- S.
    + symmetry. etransitivity; [|apply dot_seq]. rewrite NX. reflexivity.
    + apply in_map_iff. exists i. split; [reflexivity|apply in_seq; lia].
  - intros y Sy i Hi. specialize (U (map y (seq 0 n))). rewrite map_length, seq_length in U. specialize (U eq_refl). pose proof (fun K => U K i Hi) as U'. rewrite <- U'.
    + rewrite (nth_indep _ 0%Q (y 0%nat)) by (rewrite map_length, seq_length; exact Hi). rewrite map_nth, seq_nth by exact Hi. reflexivity.
    + intros e He. apply in_map_iff in He as (j & <- & Hj). apply in_seq in Hj. unfold sat. cbn [fst snd]. rewrite dot_seq. apply Sy. lia.
Qed.
