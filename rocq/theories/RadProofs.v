From Coq Require Import QArith Qabs Lqa Qfield.
From Verif Require Import Base RootsModel RootsProofs UnionModel ChargeModel CoordModel NearModel NearProofs WeightModel RefineModel RadModel RadSpec.
Local Open Scope Z_scope.

Lemma qabs_Qabs q : (qabs q == Qabs q)%Q.
Proof.
  unfold qabs. destruct (Qltb_spec q 0) as [H|H].
  - rewrite Qabs_neg by lra. reflexivity.
  - rewrite Qabs_pos by lra. reflexivity.
Qed.

Lemma Qltb_comp a b c d : (a == c)%Q -> (b == d)%Q -> Qltb a b = Qltb c d.
Proof.
  intros H1 H2. destruct (Qltb_spec a b), (Qltb_spec c d); try reflexivity; exfalso; lra.
Qed.

(** ** Choosing an index *)
Lemma nearest_index_spec ok mid l : forall bst d,
  match nearest_index ok mid l bst d with
  | None => bst = None /\ forall i, In i l -> ok i = true -> (d <= Qabs (inject_Z (Z.of_nat i) - mid))%Q
  | Some k =>
      (bst = Some k /\ (forall i, In i l -> ok i = true -> (d <= Qabs (inject_Z (Z.of_nat i) - mid))%Q)) \/
      (exists l1 l2, l = l1 ++ k :: l2 /\ ok k = true /\ (Qabs (inject_Z (Z.of_nat k) - mid) < d)%Q /\
         (forall i, In i l1 -> ok i = true -> (Qabs (inject_Z (Z.of_nat k) - mid) < Qabs (inject_Z (Z.of_nat i) - mid))%Q) /\
         (forall i, In i l2 -> ok i = true -> (Qabs (inject_Z (Z.of_nat k) - mid) <= Qabs (inject_Z (Z.of_nat i) - mid))%Q))
  end.
Proof.
  induction l as [|i t IH]; intros bst d; cbn [nearest_index].
  - destruct bst; [left|]; (split; [reflexivity|intros ? []]).
  - assert (SKIP : (ok i = true -> (d <= Qabs (inject_Z (Z.of_nat i) - mid))%Q) ->
      match nearest_index ok mid t bst d with
      | None => bst = None /\ forall j, In j (i :: t) -> ok j = true -> (d <= Qabs (inject_Z (Z.of_nat j) - mid))%Q
      | Some k =>
        (bst = Some k /\ (forall j, In j (i :: t) -> ok j = true -> (d <= Qabs (inject_Z (Z.of_nat j) - mid))%Q)) \/
        (exists l1 l2, i :: t = l1 ++ k :: l2 /\ ok k = true /\ (Qabs (inject_Z (Z.of_nat k) - mid) < d)%Q /\
         (forall i, In i l1 -> ok i = true -> (Qabs (inject_Z (Z.of_nat k) - mid) < Qabs (inject_Z (Z.of_nat i) - mid))%Q) /\
         (forall i, In i l2 -> ok i = true -> (Qabs (inject_Z (Z.of_nat k) - mid) <= Qabs (inject_Z (Z.of_nat i) - mid))%Q))
      end).
    { intro Hi. specialize (IH bst d). destruct (nearest_index ok mid t bst d) as [k|].
      - destruct IH as [(E & N)|(l1 & l2 & E & K & D & N1 & N2)].
        + left. split; [exact E|]. intros j [<-|Hj] Oj; [auto|now apply N].
        + right. exists (i :: l1), l2. split; [now rewrite E|]. split; [exact K|]. split; [exact D|]. split; [|exact N2].
          intros j [<-|Hj] Oj; [|now apply N1]. eapply Qlt_le_trans; [exact D|auto].
      - destruct IH as (E & N). split; [exact E|]. intros j [<-|Hj] Oj; [auto|now apply N]. }
    destruct (ok i) eqn:Oi; [|apply SKIP; discriminate].
    destruct (Qltb_spec (qabs (inject_Z (Z.of_nat i) - mid)) d) as [L|L]; rewrite (qabs_Qabs _) in L; [|apply SKIP; intros _; lra].
    clear SKIP. set (d' := qabs (inject_Z (Z.of_nat i) - mid)). pose proof (qabs_Qabs (inject_Z (Z.of_nat i) - mid)) as E'. fold d' in E'.
    specialize (IH (Some i) d'). destruct (nearest_index ok mid t (Some i) d') as [k|].
    + right. destruct IH as [([= <-] & N)|(l1 & l2 & E & K & D & N1 & N2)].
      * exists [], t. split; [reflexivity|]. split; [exact Oi|]. split; [exact L|]. split; [intros j []|].
        intros j Hj Oj. specialize (N j Hj Oj). lra.
      * exists (i :: l1), l2. split; [now rewrite E|]. split; [exact K|]. split; [lra|]. split; [|exact N2].
        intros j [<-|Hj] Oj; [lra|now apply N1].
    + destruct IH as (E & _). discriminate.
Qed.

Lemma nearest_index_seq ok mid n d : (forall i, (i < n)%nat -> (Qabs (inject_Z (Z.of_nat i) - mid) < d)%Q) ->
  match nearest_index ok mid (seq 0 n) None d with
  | None => forall i, (i < n)%nat -> ok i = false
  | Some k => (k < n)%nat /\ best mid (fun i => (i < n)%nat /\ ok i = true) k
  end.
Proof.
  intro H. pose proof (nearest_index_spec ok mid (seq 0 n) None d) as S.
  destruct (nearest_index ok mid (seq 0 n) None d) as [k|].
  - destruct S as [(? & _)|(l1 & l2 & E & K & D & N1 & N2)]; [discriminate|].
    assert (Hk : In k (seq 0 n)) by (rewrite E; apply in_or_app; right; now left). apply in_seq in Hk.
    split; [lia|]. split; [split; [lia|exact K]|]. intros i (Hi & Oi).
    assert (Ek : k = length l1).
    { assert (length l1 < n)%nat by (rewrite <- (seq_length n 0), E, app_length; cbn; lia).
      assert (nth (length l1) (seq 0 n) 0%nat = k) by (rewrite E, app_nth2, Nat.sub_diag by lia; reflexivity).
      rewrite seq_nth in * by lia. lia. }
    assert (Hin : In i (seq 0 n)) by (apply in_seq; lia). rewrite E in Hin. apply in_app_or in Hin as [Hin|[->|Hin]].
    + specialize (N1 i Hin Oi). split; [lra|auto].
    + split; [lra|lia].
    + split; [now apply N2|]. intro X. exfalso. apply (In_nth _ _ 0%nat) in Hin as (j & Hj & Ej).
      assert (nth (length l1 + S j) (seq 0 n) 0%nat = i).
      { rewrite E, app_nth2 by lia. replace (length l1 + S j - length l1)%nat with (S j) by lia. exact Ej. }
      assert (length l1 + S j < n)%nat by (rewrite <- (seq_length n 0), E, app_length; cbn; lia).
      rewrite seq_nth in * by lia. lia.
  - destruct S as (_ & N). intros i Hi. destruct (ok i) eqn:Oi; [|reflexivity]. exfalso.
    specialize (N i ltac:(apply in_seq; lia) Oi). specialize (H i Hi). lra.
Qed.

Lemma best_ext mid P Q' k : (forall i, P i <-> Q' i) -> best mid P k -> best mid Q' k.
Proof. intros H (A & B). split; [now apply H|]. intros i Hi. apply B, H, Hi. Qed.

(** ** Labels along the line *)
Lemma scan_spec cov site neigh l : forall acc,
  let '(c, o) := scan_labels cov site neigh l acc in
  (o = true <-> exists x, In x l /\ cov x = false /\ x <> site /\ x <> neigh) /\
  (o = false -> (c = true <-> acc = true \/ exists x, In x l /\ cov x = true)).
Proof.
  induction l as [|x t IH]; intro acc; cbn [scan_labels].
  - split; [split; [discriminate|intros (x & [] & _)]|]. intros _. split; [auto|intros [H|(x & [] & _)]; exact H].
  - destruct (cov x) eqn:C.
    + specialize (IH true). destruct (scan_labels cov site neigh t true) as (c, o). destruct IH as (I1 & I2). split.
      * rewrite I1. split; intros (y & Hy & A); exists y; [split; [now right|exact A]|]. destruct Hy as [<-|Hy]; [destruct A; congruence|auto].
      * intro Ho. rewrite (I2 Ho). split; [intros _; right; exists x; split; [now left|exact C]|auto].
    + destruct (Z.eqb_spec x site) as [->|Ns]; [|destruct (Z.eqb_spec x neigh) as [->|Nn]]; cbn [negb andb].
      * specialize (IH acc). destruct (scan_labels cov site neigh t acc) as (c, o). destruct IH as (I1 & I2). split.
        -- rewrite I1. split; intros (y & Hy & A & B & D); exists y; [auto using in_cons|]. destruct Hy as [<-|Hy]; [congruence|auto].
        -- intro Ho. rewrite (I2 Ho). split; (intros [H|(y & Hy & A)]; [now left|right; exists y; split; [|exact A]]); [now right|].
           destruct Hy as [<-|Hy]; [congruence|exact Hy].
      * specialize (IH acc). destruct (scan_labels cov site neigh t acc) as (c, o). destruct IH as (I1 & I2). split.
        -- rewrite I1. split; intros (y & Hy & A & B & D); exists y; [auto using in_cons|]. destruct Hy as [<-|Hy]; [congruence|auto].
        -- intro Ho. rewrite (I2 Ho). split; (intros [H|(y & Hy & A)]; [now left|right; exists y; split; [|exact A]]); [now right|].
           destruct Hy as [<-|Hy]; [congruence|exact Hy].
      * split; [|discriminate]. split; [intros _|reflexivity]. exists x. split; [now left|]. auto.
Qed.

Lemma first_foreign_spec atom l : forall s (lab : nat -> Z), (forall i, (i < length l)%nat -> nth i l 0 = lab (s + i)%nat) ->
  (exists i, (i < length l)%nat /\ first_foreign atom s l = Z.of_nat (s + i) /\ lab (s + i)%nat <> -1 /\ lab (s + i)%nat <> atom /\
     forall j, (j < i)%nat -> lab (s + j)%nat = -1 \/ lab (s + j)%nat = atom) \/
  (first_foreign atom s l = -1 /\ forall j, (j < length l)%nat -> lab (s + j)%nat = -1 \/ lab (s + j)%nat = atom).
Proof.
  induction l as [|x t IH]; intros s lab H; cbn [first_foreign length] in *.
  - right. split; [reflexivity|]. intros; lia.
  - pose proof (H 0%nat ltac:(lia)) as H0. cbn in H0. rewrite Nat.add_0_r in H0.
    assert (IH' := IH (S s) lab). specialize (IH' ltac:(intros i Hi; specialize (H (S i) ltac:(lia)); cbn in H; rewrite H; f_equal; lia)).
    assert (SK : (x = -1 \/ x = atom) ->
       (exists i, (i < S (length t))%nat /\ first_foreign atom (S s) t = Z.of_nat (s + i) /\ lab (s + i)%nat <> -1 /\ lab (s + i)%nat <> atom /\
         forall j, (j < i)%nat -> lab (s + j)%nat = -1 \/ lab (s + j)%nat = atom) \/
       (first_foreign atom (S s) t = -1 /\ forall j, (j < S (length t))%nat -> lab (s + j)%nat = -1 \/ lab (s + j)%nat = atom)).
    { intro Hx. rewrite H0 in Hx. destruct IH' as [(i & A & B & C & D & E)|(A & B)].
      - left. exists (S i). rewrite Nat.add_succ_r. rewrite Nat.add_succ_l in *. repeat (split; [assumption || lia|]).
        intros [|j] Hj; [now rewrite Nat.add_0_r|]. rewrite Nat.add_succ_r, <- Nat.add_succ_l. apply E. lia.
      - right. split; [exact A|]. intros [|j] Hj; [now rewrite Nat.add_0_r|]. rewrite Nat.add_succ_r, <- Nat.add_succ_l. apply B. lia. }
    destruct (Z.eqb_spec x (-1)) as [->|N1]; [apply SK; now left|].
    destruct (Z.eqb_spec x atom) as [->|N2]; cbn [negb]; [apply SK; now right|].
    left. exists 0%nat. rewrite Nat.add_0_r, <- H0. repeat (split; [assumption || lia|]). intros; lia.
Qed.

(** ** Refinement *)
Section R.
Variable f : vec -> Q.
Variable step a : vec.
Hypothesis F : of_place Qeq f.

Definition at_ (t : Q) : vec := vadd a (vscale t step).

Lemma at_comp t u : (t == u)%Q -> same_place (at_ t) (at_ u).
Proof. intro H. unfold at_, vadd, vscale, vmap, same_place. destruct a as ((?, ?), ?), step as ((?, ?), ?). rewrite H. repeat split; reflexivity. Qed.
Lemma at_up c t m : same_place c (at_ t) -> same_place (vadd c (vscale m step)) (at_ (t + m)).
Proof.
  unfold at_, vadd, vscale, vmap, same_place. destruct a as ((?, ?), ?), step as ((?, ?), ?), c as ((?, ?), ?).
  intros (A & B & C). rewrite A, B, C. repeat split; ring.
Qed.
Lemma at_down c t m : same_place c (at_ t) -> same_place (vsub c (vscale m step)) (at_ (t - m)).
Proof.
  unfold at_, vadd, vsub, vscale, vmap, same_place. destruct a as ((?, ?), ?), step as ((?, ?), ?), c as ((?, ?), ?).
  intros (A & B & C). rewrite A, B, C. repeat split; ring.
Qed.

Lemma refine_max n : forall mult c v r, (0 < mult)%Q -> same_place c (at_ r) -> (v == f (at_ r))%Q ->
  let x := refine f true step n mult c v r in
  (Qabs (x - r) < mult)%Q /\ (f (at_ r) <= f (at_ x))%Q.
Proof.
  induction n as [|n IH]; intros mult c v r Hm Hc Hv; cbn zeta; cbn [refine].
  - split; [setoid_replace (r - r)%Q with 0%Q by ring; exact Hm|lra].
  - assert (Hm' : (0 < mult / 2)%Q) by (apply Qlt_shift_div_l; [reflexivity|lra]).
    assert (H2 : (mult == mult / 2 + mult / 2)%Q) by field.
    set (mu := (mult / 2)%Q) in *.
    pose proof (at_up c r mu Hc) as Pu. pose proof (at_down c r mu Hc) as Pd.
    pose proof (F _ _ Pu) as Fu. pose proof (F _ _ Pd) as Fd.
    destruct (Qltb_spec v (f (vadd c (vscale mu step)))) as [L|L]; cbn [andb];
      [destruct (Qle_bool (f (vsub c (vscale mu step))) (f (vadd c (vscale mu step))))|].
    + destruct (IH mu _ _ (r + mu)%Q Hm' Pu Fu) as (A & B). split; [|lra].
      set (x := refine _ _ _ _ _ _ _ _) in *. apply Qabs_Qlt_condition in A. apply Qabs_Qlt_condition. lra.
    + destruct (Qltb_spec v (f (vsub c (vscale mu step)))) as [L2|L2].
      * destruct (IH mu _ _ (r - mu)%Q Hm' Pd Fd) as (A & B). split; [|lra].
        set (x := refine _ _ _ _ _ _ _ _) in *. apply Qabs_Qlt_condition in A. apply Qabs_Qlt_condition. lra.
      * destruct (IH mu c v r Hm' Hc Hv) as (A & B). split; [lra|exact B].
    + destruct (Qltb_spec v (f (vsub c (vscale mu step)))) as [L2|L2].
      * destruct (IH mu _ _ (r - mu)%Q Hm' Pd Fd) as (A & B). split; [|lra].
        set (x := refine _ _ _ _ _ _ _ _) in *. apply Qabs_Qlt_condition in A. apply Qabs_Qlt_condition. lra.
      * destruct (IH mu c v r Hm' Hc Hv) as (A & B). split; [lra|exact B].
Qed.

Fixpoint half_pow (n : nat) : Q := match n with O => 1 | S n => half_pow n / 2 end.

Lemma refine_peak k m n : single_peak (fun t => f (at_ t)) k m ->
  forall mult c v r, (0 < mult)%Q -> same_place c (at_ r) -> (v == f (at_ r))%Q ->
  (Qabs (r - k) <= 1 - mult)%Q -> (Qabs (r - m) <= mult)%Q ->
  (Qabs (refine f true step n mult c v r - m) <= mult * half_pow n)%Q.
Proof.
  intros (UP & DOWN & HK). cbn beta in *. induction n as [|n IH]; intros mult c v r Hm Hc Hv Hk Hr; cbn [refine half_pow].
  - rewrite Qmult_1_r. exact Hr.
  - assert (Hm' : (0 < mult / 2)%Q) by (apply Qlt_shift_div_l; [reflexivity|lra]).
    assert (H2 : (mult == mult / 2 + mult / 2)%Q) by field.
    assert (HP : (mult * (half_pow n / 2) == mult / 2 * half_pow n)%Q) by field. rewrite HP. clear HP.
    set (mu := (mult / 2)%Q) in *.
    pose proof (at_up c r mu Hc) as Pu. pose proof (at_down c r mu Hc) as Pd.
    pose proof (F _ _ Pu) as Fu. pose proof (F _ _ Pd) as Fd.
    apply Qabs_Qle_condition in Hk. apply Qabs_Qle_condition in Hr.
    assert (CU : (r + mu <= m -> f (at_ r) < f (at_ (r + mu)))%Q) by (intro; apply UP; lra).
    assert (CD : (m <= r - mu -> f (at_ r) < f (at_ (r - mu)))%Q) by (intro; apply DOWN; lra).
    assert (NU : (m <= r -> f (at_ (r + mu)) < f (at_ r))%Q) by (intro; apply DOWN; lra).
    assert (ND : (r <= m -> f (at_ (r - mu)) < f (at_ r))%Q) by (intro; apply UP; lra).
    destruct (Qlt_le_dec r m) as [Lm|Lm].
    + (* peak above: never down *)
      assert (D : (f (at_ (r - mu)) < f (at_ r))%Q) by (apply ND; lra).
      destruct (Qltb_spec v (f (vsub c (vscale mu step)))) as [L2|L2]; [exfalso; lra|].
      destruct (Qltb_spec v (f (vadd c (vscale mu step)))) as [L|L]; cbn [andb].
      * destruct (Qle_bool (f (vsub c (vscale mu step))) (f (vadd c (vscale mu step)))) eqn:LE.
        -- apply (IH mu _ _ (r + mu)%Q Hm' Pu Fu); apply Qabs_Qle_condition; split; try lra.
        -- exfalso. assert (X : (f (vsub c (vscale mu step)) <= f (vadd c (vscale mu step)))%Q) by lra.
           apply Qle_bool_iff in X. congruence.
      * apply (IH mu c v r Hm' Hc Hv); apply Qabs_Qle_condition; split; lra.
    + destruct (Qeq_dec r m) as [Em|Em].
      * (* at the peak *)
        assert (U : (f (at_ (r + mu)) < f (at_ r))%Q) by (apply NU; lra).
        assert (D : (f (at_ (r - mu)) < f (at_ r))%Q) by (apply ND; lra).
        destruct (Qltb_spec v (f (vadd c (vscale mu step)))) as [L|L]; [exfalso; lra|]. cbn [andb].
        destruct (Qltb_spec v (f (vsub c (vscale mu step)))) as [L2|L2]; [exfalso; lra|].
        apply (IH mu c v r Hm' Hc Hv); apply Qabs_Qle_condition; split; lra.
      * assert (U : (f (at_ (r + mu)) < f (at_ r))%Q) by (apply NU; lra).
        destruct (Qltb_spec v (f (vadd c (vscale mu step)))) as [L|L]; [exfalso; lra|]. cbn [andb].
        destruct (Qltb_spec v (f (vsub c (vscale mu step)))) as [L2|L2].
        -- apply (IH mu _ _ (r - mu)%Q Hm' Pd Fd); apply Qabs_Qle_condition; split; lra.
        -- apply (IH mu c v r Hm' Hc Hv); apply Qabs_Qle_condition; split; lra.
Qed.
End R.

(** Minima are maxima of the negated values. *)
Lemma Qltb_opp a b : Qltb (- a) (- b) = Qltb b a.
Proof. destruct (Qltb_spec (- a) (- b)), (Qltb_spec b a); try reflexivity; exfalso; lra. Qed.
Lemma Qle_bool_opp a b : Qle_bool (- a) (- b) = Qle_bool b a.
Proof.
  destruct (Qle_bool b a) eqn:E; [apply Qle_bool_iff in E; apply Qle_bool_iff; lra|].
  destruct (Qle_bool (- a) (- b)) eqn:E2; [|reflexivity]. apply Qle_bool_iff in E2.
  assert (X : (b <= a)%Q) by lra. apply Qle_bool_iff in X. congruence.
Qed.
Lemma refine_neg f step n : forall mult c v r,
  refine f false step n mult c v r = refine (fun p => (- f p)%Q) true step n mult c (- v)%Q r.
Proof.
  induction n as [|n IH]; intros mult c v r; cbn [refine]; [reflexivity|]. rewrite !Qltb_opp, !Qle_bool_opp, !IH. reflexivity.
Qed.

Lemma neg_place f : of_place Qeq f -> of_place Qeq (fun p => (- f p)%Q).
Proof. intros H p q E. rewrite (H p q E). reflexivity. Qed.
