(** Integrals of rational functions as limits of Riemann sums, and volumes by slicing. *)
From Coq Require Import QArith Qabs Qround Lqa Lia.
From Verif Require Import Base PlaneSpec.
Local Open Scope Q_scope.

Notation nq n := (inject_Z (Z.of_nat n)).

Lemma nq_pos n : (0 < n)%nat -> (0 < nq n)%Q.
Proof. intros H. rewrite <- (Zlt_Qlt 0). lia. Qed.
Lemma nq_S n : (nq (S n) == nq n + 1)%Q.
Proof. rewrite Nat2Z.inj_succ, <- Z.add_1_r, inject_Z_plus. reflexivity. Qed.
Lemma nq_nonneg n : (0 <= nq n)%Q.
Proof. rewrite <- (Zle_Qle 0). lia. Qed.

Lemma sample_range n k : (k < n)%nat -> (0 <= nq k / nq n <= 1)%Q.
Proof.
  intros H. assert (0 < nq n)%Q by (apply nq_pos; lia). split.
  - apply Qle_shift_div_l; [lra|]. pose proof (nq_nonneg k). lra.
  - apply Qle_shift_div_r; [lra|]. assert (nq k <= nq n)%Q by (rewrite <- Zle_Qle; lia). lra.
Qed.

Lemma qsum_map_le {A} (f g : A -> Q) l : (forall x, In x l -> (f x <= g x)%Q) -> (qsum (map f l) <= qsum (map g l))%Q.
Proof.
  induction l as [|a t IH]; intros H; [cbn; lra|]. cbn [map]. rewrite !qsum_cons.
  assert (f a <= g a)%Q by (apply H; now left). assert (qsum (map f t) <= qsum (map g t))%Q by (apply IH; intros; apply H; now right). lra.
Qed.

Lemma qsum_map_const {A} (c : Q) (l : list A) : (qsum (map (fun _ => c) l) == c * nq (length l))%Q.
Proof. induction l as [|a t IH]; [cbn [map length]; change (nq 0) with 0%Q; cbn [qsum fold_right]; ring|]. cbn [map length]. rewrite qsum_cons, IH, nq_S. ring. Qed.

Lemma riemann_le f g n : (forall x, 0 <= x <= 1 -> f x <= g x)%Q -> (0 < n)%nat -> (riemann f n <= riemann g n)%Q.
Proof.
  intros H Hn. unfold riemann. pose proof (nq_pos n Hn). apply Qle_shift_div_l; [lra|].
  assert (E : (qsum (map (fun k => f (nq k / nq n)) (seq 0 n)) / nq n * nq n == qsum (map (fun k => f (nq k / nq n)) (seq 0 n)))%Q) by (field; lra).
  rewrite E. apply qsum_map_le. intros k Hk. apply in_seq in Hk. apply H, sample_range. lia.
Qed.

Lemma riemann_const c n : (0 < n)%nat -> (riemann (fun _ => c) n == c)%Q.
Proof. intros Hn. unfold riemann. pose proof (nq_pos n Hn). rewrite qsum_map_const, seq_length. field. lra. Qed.

Lemma integral_mono f g v w : (forall x, 0 <= x <= 1 -> f x <= g x)%Q -> integral f v -> integral g w -> (v <= w)%Q.
Proof.
  intros H F G. destruct (Qlt_le_dec w v) as [L|L]; [|exact L]. exfalso.
  assert (E : (0 < (v - w) * (1 # 3))%Q) by lra.
  destruct (F _ E) as [n1 F1]. destruct (G _ E) as [n2 G1].
  set (n := S (n1 + n2)). specialize (F1 n ltac:(lia)). specialize (G1 n ltac:(lia)).
  apply Qabs_Qle_condition in F1, G1. pose proof (riemann_le f g n H ltac:(lia)). lra.
Qed.

Lemma integral_comp f v w : (v == w)%Q -> integral f v -> integral f w.
Proof.
  intros E F eps He. destruct (F eps He) as [n0 H]. exists n0. intros n Hn. specialize (H n Hn).
  rewrite <- E. exact H.
Qed.

Lemma integral_ext f g v : (forall x, 0 <= x <= 1 -> f x == g x)%Q -> integral f v -> integral g v.
Proof.
  intros E F eps He. destruct (F eps He) as [n0 H]. exists (S n0). intros n Hn. specialize (H n ltac:(lia)).
  assert (R : (riemann g n == riemann f n)%Q).
  { apply Qle_antisym; (apply riemann_le; [|lia]); intros x Hx; rewrite (E x Hx); apply Qle_refl. }
  rewrite R. exact H.
Qed.

Lemma integral_const c : integral (fun _ => c) c.
Proof.
  intros eps He. exists 1%nat. intros n Hn. rewrite riemann_const by lia.
  setoid_replace (c - c)%Q with 0%Q by lra. cbn. lra.
Qed.

Lemma integral_unique f v w : integral f v -> integral f w -> (v == w)%Q.
Proof. intros A B. apply Qle_antisym; eapply integral_mono; eauto; intros; lra. Qed.

Lemma integral_compl f v : integral f v -> integral (fun x => 1 - f x)%Q (1 - v)%Q.
Proof.
  intros F eps He. destruct (F eps He) as [n0 H]. exists (S n0). intros n Hn. specialize (H n ltac:(lia)).
  pose proof (nq_pos n ltac:(lia)) as Np.
  assert (R : (riemann (fun x => 1 - f x) n == 1 - riemann f n)%Q).
  { unfold riemann. rewrite (qsum_map_ext _ (fun k => (1 + -1 * f (nq k / nq n))%Q)) by (intros; lra).
    rewrite qsum_map_plus, qsum_map_scale, qsum_map_const, seq_length. field. lra. }
  rewrite R. setoid_replace (1 - v - (1 - riemann f n))%Q with (- (v - riemann f n))%Q by lra. rewrite Qabs_opp. exact H.
Qed.

(** Left ends and right ends. *)
Lemma qsum_seq_S (h : nat -> Q) n : (qsum (map h (seq 0 (S n))) == qsum (map h (seq 0 n)) + h n)%Q.
Proof. rewrite seq_S, map_app, qsum_app. cbn [map plus]. rewrite (qsum_cons (h n) []). cbn. lra. Qed.

Lemma qsum_seq_rev (h : nat -> Q) n : (qsum (map (fun k => h (n - 1 - k)%nat) (seq 0 n)) == qsum (map h (seq 0 n)))%Q.
Proof.
  induction n as [|n IH]; [cbn; lra|].
  rewrite (qsum_seq_S h). cbn [seq map]. rewrite qsum_cons. replace (S n - 1 - 0)%nat with n by lia.
  rewrite <- seq_shift, map_map.
  assert (E : (qsum (map (fun x => h (S n - 1 - S x)%nat) (seq 0 n)) == qsum (map (fun k => h (n - 1 - k)%nat) (seq 0 n)))%Q).
  { apply qsum_map_ext. intros x _. replace (S n - 1 - S x)%nat with (n - 1 - x)%nat by lia. lra. }
  rewrite E, IH. lra.
Qed.

Lemma qsum_seq_shift (h : nat -> Q) n : (qsum (map (fun k => h (S k)) (seq 0 n)) + h 0%nat == qsum (map h (seq 0 n)) + h n)%Q.
Proof. rewrite <- qsum_seq_S. cbn [seq map]. rewrite qsum_cons, <- seq_shift, map_map. lra. Qed.

Lemma qsum_seq_tele (h : nat -> Q) n : (qsum (map (fun k => h (S k) - h k)%Q (seq 0 n)) == h n - h 0%nat)%Q.
Proof. induction n as [|n IH]; [cbn; lra|]. rewrite (qsum_seq_S (fun k => h (S k) - h k)%Q). cbn beta. rewrite IH. lra. Qed.

Lemma small_bound c eps : (0 < eps)%Q -> exists n0, forall n, (n0 <= n)%nat -> (0 < n)%nat -> (c / nq n <= eps)%Q.
Proof.
  intros He. exists (Z.to_nat (Qceiling (c / eps))). intros n Hn Hp. pose proof (nq_pos n Hp).
  apply Qle_shift_div_r; [lra|]. pose proof (Qle_ceiling (c / eps)) as C.
  assert (B : (c / eps <= nq n)%Q) by (eapply Qle_trans; [exact C|]; rewrite <- Zle_Qle; lia).
  assert (c == c / eps * eps)%Q by (field; lra). nra.
Qed.

Lemma integral_flip f v : (forall x y, x == y -> f x == f y)%Q -> (forall x, 0 <= f x <= 1)%Q ->
  integral f v -> integral (fun x => f (1 - x))%Q v.
Proof.
  intros P B F eps He. assert (He2 : (0 < eps * (1 # 2))%Q) by lra.
  destruct (F _ He2) as [n0 H]. destruct (small_bound 1 _ He2) as [n1 S1].
  exists (S (n0 + n1)). intros n Hn. specialize (H n ltac:(lia)). specialize (S1 n ltac:(lia) ltac:(lia)).
  pose proof (nq_pos n ltac:(lia)) as Np.
  assert (R : (riemann (fun x => f (1 - x)) n == riemann f n + (f 1 - f 0) / nq n)%Q).
  { unfold riemann.
    assert (E : (qsum (map (fun k => f (1 - nq k / nq n)) (seq 0 n)) == qsum (map (fun k => f (nq (S k) / nq n)) (seq 0 n)))%Q).
    { rewrite <- (qsum_seq_rev (fun k => f (nq (S k) / nq n))). apply qsum_map_ext. intros k Hk. apply in_seq in Hk.
      apply P. assert (E : (nq (S (n - 1 - k)) == nq n - nq k)%Q).
      { replace (S (n - 1 - k)) with (n - k)%nat by lia. rewrite Nat2Z.inj_sub by lia. rewrite <- Z.add_opp_r, inject_Z_plus, inject_Z_opp. lra. }
      rewrite E. field. lra. }
    rewrite E. pose proof (qsum_seq_shift (fun k => f (nq k / nq n)) n) as T. cbn beta in T.
    assert (T0 : (f (nq 0 / nq n) == f 0)%Q) by (apply P; cbn; field; lra).
    assert (T1 : (f (nq n / nq n) == f 1)%Q) by (apply P; field; lra).
    rewrite T0, T1 in T.
    setoid_replace (qsum (map (fun k => f (nq (S k) / nq n)) (seq 0 n))) with (qsum (map (fun k => f (nq k / nq n)) (seq 0 n)) + f 1 - f 0)%Q by lra.
    field. lra. }
  rewrite R. pose proof (B 0%Q). pose proof (B 1%Q).
  assert (D : (- (1 / nq n) <= (f 1 - f 0) / nq n <= 1 / nq n)%Q).
  { split; [apply Qle_shift_div_l; [lra|] | apply Qle_shift_div_r; [lra|]].
    - assert (- (1 / nq n) * nq n == -1)%Q by (field; lra). lra.
    - assert (1 / nq n * nq n == 1)%Q by (field; lra). lra. }
  apply Qabs_Qle_condition in H. apply Qabs_Qle_condition. lra.
Qed.

(** A primitive gives the integral: the error over each piece is small enough. *)
Lemma integral_primitive (F f : Q -> Q) (K : Q) :
  (forall x y, x == y -> F x == F y)%Q ->
  (forall n, (0 < n)%nat -> Qabs (qsum (map (fun k => F (nq (S k) / nq n) - F (nq k / nq n) - f (nq k / nq n) / nq n) (seq 0 n))) <= K / nq n)%Q ->
  integral f (F 1 - F 0)%Q.
Proof.
  intros P B eps He. destruct (small_bound K _ He) as [n1 S1]. exists (S n1). intros n Hn.
  specialize (S1 n ltac:(lia) ltac:(lia)). specialize (B n ltac:(lia)). pose proof (nq_pos n ltac:(lia)) as Np.
  assert (E : (F 1 - F 0 - riemann f n == qsum (map (fun k => F (nq (S k) / nq n) - F (nq k / nq n) - f (nq k / nq n) / nq n) (seq 0 n)))%Q).
  { rewrite (qsum_map_ext _ (fun k => (F (nq (S k) / nq n) - F (nq k / nq n)) + - (1 / nq n) * f (nq k / nq n))%Q) by (intros; field; lra).
    rewrite qsum_map_plus, qsum_map_scale. rewrite (qsum_seq_tele (fun k => F (nq k / nq n))).
    assert (T0 : (F (nq 0 / nq n) == F 0)%Q) by (apply P; cbn; field; lra).
    assert (T1 : (F (nq n / nq n) == F 1)%Q) by (apply P; field; lra).
    rewrite T0, T1. unfold riemann. field. lra. }
  rewrite E. lra.
Qed.

Lemma qsum_abs_le {A} (h : A -> Q) (c : Q) l : (forall x, In x l -> Qabs (h x) <= c)%Q -> (Qabs (qsum (map h l)) <= c * nq (length l))%Q.
Proof.
  induction l as [|a t IH]; intros H; [cbn [map length qsum fold_right]; change (nq 0) with 0%Q; cbn [Qabs Z.abs]; lra|]. cbn [map length]. rewrite qsum_cons, nq_S.
  eapply Qle_trans; [apply Qabs_triangle|]. assert (Qabs (h a) <= c)%Q by (apply H; now left).
  assert (Qabs (qsum (map h t)) <= c * nq (length t))%Q by (apply IH; intros; apply H; now right). lra.
Qed.

Lemma step_sample n k : (0 < n)%nat -> (nq (S k) / nq n == nq k / nq n + 1 / nq n)%Q.
Proof. intros H. pose proof (nq_pos n H). rewrite nq_S. field. lra. Qed.

(** Smooth case. *)
Lemma integral_smooth (F f : Q -> Q) (K : Q) :
  (forall x y, x == y -> F x == F y)%Q ->
  (forall x y, 0 <= x <= 1 -> 0 <= y <= 1 -> Qabs (F y - F x - f x * (y - x)) <= K * ((y - x) * (y - x)))%Q ->
  integral f (F 1 - F 0)%Q.
Proof.
  intros P B. apply (integral_primitive F f K P). intros n Hn. pose proof (nq_pos n Hn) as Np.
  eapply Qle_trans; [apply (qsum_abs_le _ (K / (nq n * nq n))%Q)|].
  - intros k Hk. apply in_seq in Hk.
    assert (R1 := sample_range n k ltac:(lia)).
    assert (R2 : (0 <= nq (S k) / nq n <= 1)%Q).
    { pose proof (nq_nonneg (S k)). split; [apply Qle_shift_div_l; lra|apply Qle_shift_div_r; [lra|]]. assert (nq (S k) <= nq n)%Q by (rewrite <- Zle_Qle; lia). lra. }
    specialize (B _ _ R1 R2). pose proof (step_sample n k Hn) as St.
    set (x := (nq k / nq n)%Q) in *. set (y := (nq (S k) / nq n)%Q) in *.
    assert (E1 : (f x / nq n == f x * (y - x))%Q) by (rewrite St; field; lra).
    assert (E2 : (K / (nq n * nq n) == K * ((y - x) * (y - x)))%Q) by (rewrite St; field; lra).
    rewrite E1, E2. exact B.
  - rewrite seq_length. assert (E : (K / (nq n * nq n) * nq n == K / nq n)%Q) by (field; lra). rewrite E. lra.
Qed.

(** Monotone case. *)
Lemma integral_monotone (F f : Q -> Q) :
  (forall x y, x == y -> F x == F y)%Q -> (forall x, 0 <= f x <= 1)%Q -> (forall x y, x == y -> f x == f y)%Q ->
  (forall x y, 0 <= x -> x <= y -> y <= 1 -> f y * (y - x) <= F y - F x <= f x * (y - x))%Q ->
  integral f (F 1 - F 0)%Q.
Proof.
  intros P R Pf B. apply (integral_primitive F f 1 P). intros n Hn. pose proof (nq_pos n Hn) as Np.
  set (h := fun k => (F (nq (S k) / nq n) - F (nq k / nq n) - f (nq k / nq n) / nq n)%Q).
  assert (H : forall k, (k < n)%nat -> ((f (nq (S k) / nq n) - f (nq k / nq n)) * (1 / nq n) <= h k <= 0)%Q).
  { intros k Hk. unfold h. assert (R1 := sample_range n k ltac:(lia)). pose proof (step_sample n k Hn) as St.
    assert (W : (0 < 1 / nq n)%Q) by (apply Qlt_shift_div_l; lra).
    assert (R2 : (nq (S k) / nq n <= 1)%Q).
    { apply Qle_shift_div_r; [lra|]. assert (nq (S k) <= nq n)%Q by (rewrite <- Zle_Qle; lia). lra. }
    specialize (B (nq k / nq n) (nq (S k) / nq n) ltac:(lra) ltac:(lra) R2)%Q.
    assert (E : (nq (S k) / nq n - nq k / nq n == 1 / nq n)%Q) by lra. rewrite E in B.
    assert (E1 : (f (nq k / nq n) / nq n == f (nq k / nq n) * (1 / nq n))%Q) by (field; lra). rewrite E1. lra. }
  assert (U : (qsum (map h (seq 0 n)) <= 0)%Q).
  { rewrite <- (qsum_map_zero (seq 0 n)). apply qsum_map_le. intros k Hk. apply in_seq in Hk. apply H. lia. }
  assert (L : (- (1 / nq n) <= qsum (map h (seq 0 n)))%Q).
  { eapply Qle_trans; [|apply (qsum_map_le (fun k => (1 / nq n) * (f (nq (S k) / nq n) - f (nq k / nq n)))%Q)].
    - rewrite qsum_map_scale, (qsum_seq_tele (fun k => f (nq k / nq n))).
      pose proof (R (nq n / nq n))%Q. pose proof (R (nq 0 / nq n))%Q. assert (0 < 1 / nq n)%Q by (apply Qlt_shift_div_l; lra). nra.
    - intros k Hk. apply in_seq in Hk. destruct (H k ltac:(lia)) as [A _]. lra. }
  apply Qabs_Qle_condition. split; lra.
Qed.
