From Verif Require Import Base GridModel GridProofs NeighModel NeighSpec NeighProofs RootsModel RootsSpec.
From Coq Require Import ZifyBool ZifyNat.

(** ** sequence / list equality *)
Lemma sequence_some {A} (l : list (option A)) r :
  sequence l = Some r <-> l = map Some r.
Proof.
  revert r. induction l as [|[x|] t IH]; intros r; simpl.
  - split; [intros [= <-]; reflexivity|]. destruct r; [reflexivity|discriminate].
  - destruct (sequence t) as [r'|] eqn:E.
    + split.
      * intros [= <-]. simpl. f_equal. now apply IH.
      * destruct r as [|y r]; [discriminate|]. simpl. intros [= -> H].
        apply IH in H. congruence.
    + split; [discriminate|]. destruct r as [|y r]; [discriminate|]. simpl. intros [= -> H].
      apply IH in H. discriminate.
  - split; [discriminate|]. destruct r; discriminate.
Qed.

Lemma zlist_eqb_eq a b : zlist_eqb a b = true <-> a = b.
Proof.
  revert b; induction a as [|x a IH]; intros [|y b]; simpl; try (split; congruence).
  rewrite andb_true_iff, IH, Z.eqb_eq. split; [intros [-> ->]; reflexivity|now injection 1].
Qed.

(** ** iterating a pointer map *)
Section Iter.
Variable f : nat -> nat.
Fixpoint it (k : nat) (i : nat) : nat := match k with O => i | S k' => f (it k' i) end.

Lemma it_add a b i : it (a + b) i = it a (it b i).
Proof. induction a as [|a IH]; simpl; congruence. Qed.

Lemma it_fix k i : f i = i -> it k i = i.
Proof. intro H. induction k as [|k IH]; simpl; congruence. Qed.

Lemma it_periodic m k i : it m i = i -> it (k * m) i = i.
Proof. intro H. induction k as [|k IH]; simpl; [reflexivity|]. rewrite it_add, IH. exact H. Qed.

Lemma periodic_is_fixed m t i : (0 < m)%nat -> it m i = i -> f (it t i) = it t i -> f i = i.
Proof.
  intros Hm Hp Hf.
  assert (E : it (t * m) i = i) by now apply it_periodic.
  assert (E2 : it (t * m) i = it t i).
  { replace (t * m)%nat with ((t * m - t) + t)%nat by nia. rewrite it_add. now apply it_fix. }
  congruence.
Qed.

Lemma dup_positions (l : list nat) : ~ NoDup l ->
  exists a b, (a < b < length l)%nat /\ nth a l 0%nat = nth b l 0%nat.
Proof.
  induction l as [|x t IH]; intro H; [exfalso; apply H; constructor|].
  destruct (in_dec Nat.eq_dec x t) as [Hi|Hi].
  - destruct (In_nth t x 0%nat Hi) as (b & Hb & E). exists 0%nat, (S b). simpl. split; [lia|auto].
  - destruct IH as (a & b & Hab & E).
    { intro N. apply H. constructor; auto. }
    exists (S a), (S b). simpl. split; [lia|auto].
Qed.

(** If the orbit stays below [n] and is eventually fixed, it is fixed after [n] steps. *)
Lemma fixed_within n i : (forall k, (it k i < n)%nat) -> (exists t, f (it t i) = it t i) ->
  f (it n i) = it n i.
Proof.
  intros Hb (t & Ht).
  set (l := map (fun k => it k i) (seq 0 (S n))).
  assert (Hl : length l = S n) by (unfold l; now rewrite map_length, seq_length).
  assert (ND : ~ NoDup l).
  { intro N. assert (incl l (seq 0 n)).
    { intros x Hx. apply in_map_iff in Hx as (k & <- & _). apply in_seq. specialize (Hb k). lia. }
    pose proof (NoDup_incl_length N H) as L. rewrite seq_length in L. lia. }
  destruct (dup_positions l ND) as (a & b & Hab & E).
  assert (Hn : forall k, (k < S n)%nat -> nth k l 0%nat = it k i).
  { intros k Hk. unfold l. rewrite (nth_indep _ 0%nat (it 0%nat i)) by (rewrite map_length, seq_length; lia).
    change (it 0%nat i) with ((fun k => it k i) 0%nat). rewrite map_nth, seq_nth by lia. reflexivity. }
  rewrite !Hn in E by lia.
  assert (P : it (b - a) (it a i) = it a i).
  { rewrite <- it_add. replace (b - a + a)%nat with b by lia. congruence. }
  assert (F : f (it a i) = it a i).
  { apply (periodic_is_fixed (b - a) t); [lia|exact P|].
    rewrite <- it_add, Nat.add_comm, it_add.
    rewrite it_fix by exact Ht. exact Ht. }
  replace n with ((n - a) + a)%nat by lia. rewrite it_add, it_fix by exact F. exact F.
Qed.
End Iter.

(** ** Pointer doubling *)
Section Doubling.
Variable p : list Z.
Let n := length p.
Variable valid : nat -> bool.
Let f (i : nat) : nat := Z.to_nat (nth i p (-1)).

Hypothesis Hvalid : forall i, (i < n)%nat -> valid i = true ->
  0 <= nth i p (-1) < Z.of_nat n /\ valid (Z.to_nat (nth i p (-1))) = true.
Hypothesis Hends : forall i, (i < n)%nat -> valid i = true -> exists r, reaches p i r.

Lemma f_ok i : (i < n)%nat -> valid i = true -> (f i < n)%nat /\ valid (f i) = true.
Proof. intros H V. destruct (Hvalid i H V) as [R W]. unfold f. split; [lia|exact W]. Qed.

Lemma it_ok k i : (i < n)%nat -> valid i = true -> (it f k i < n)%nat /\ valid (it f k i) = true.
Proof.
  intros H V. induction k as [|k [IH1 IH2]]; simpl; [auto|]. now apply f_ok.
Qed.

Lemma nth_f i : (i < n)%nat -> valid i = true -> nth_error p i = Some (Z.of_nat (f i)).
Proof.
  intros H V. rewrite (nth_error_nth_lt p i (-1)) by exact H. f_equal.
  destruct (Hvalid i H V) as [R _]. unfold f. lia.
Qed.

Lemma reaches_it i r : (i < n)%nat -> valid i = true -> reaches p i r ->
  exists t, it f t i = r /\ f r = r.
Proof.
  intros H V R. induction R as [i E|i j r E R IH].
  - exists 0%nat. split; [reflexivity|]. rewrite (nth_f i H V) in E. injection E as E. lia.
  - rewrite (nth_f i H V) in E. injection E as E. assert (j = f i) by lia. subst j.
    destruct (f_ok i H V) as [H' V']. destruct (IH H' V') as (t & Et & Er).
    exists (t + 1)%nat. rewrite it_add. simpl. auto.
Qed.

Lemma it_reaches t : forall i, (i < n)%nat -> valid i = true -> f (it f t i) = it f t i ->
  reaches p i (it f t i).
Proof.
  induction t as [|t IH]; intros i H V E; simpl in *.
  - apply reaches_end. rewrite (nth_f i H V), E. reflexivity.
  - apply (reaches_step p i (f i)); [now apply nth_f|].
    assert (C : f (it f t i) = it f t (f i)).
    { change (f (it f t i)) with (it f (1 + t) i). rewrite Nat.add_comm, it_add. reflexivity. }
    rewrite C in *. destruct (f_ok i H V) as [H' V']. apply IH; auto.
Qed.

Lemma fixed_n i : (i < n)%nat -> valid i = true -> f (it f n i) = it f n i.
Proof.
  intros H V. apply fixed_within.
  - intro k. now apply it_ok.
  - destruct (Hends i H V) as (r & R). destruct (reaches_it i r H V R) as (t & Et & Er).
    exists t. congruence.
Qed.

(** State of the array after some passes. *)
Definition powered (m : nat) (q : list Z) : Prop :=
  length q = n /\
  forall i, (i < n)%nat ->
    (valid i = true -> nth_error q i = Some (Z.of_nat (it f m i))) /\
    (valid i = false -> nth_error q i = nth_error p i).

Lemma powered_pass (pass : list Z -> option (list Z)) m q :
  (forall q, length q = n -> pass q = sequence (map (fun i =>
       if valid i then np_get q (nth i q (-1)) else Some (nth i q (-1))) (seq 0 n))) ->
  powered m q -> exists q', pass q = Some q' /\ powered (m + m) q'.
Proof.
  intros Hpass [HL HI].
  exists (map (fun i => if valid i then Z.of_nat (it f (m + m) i) else nth i p (-1)) (seq 0 n)).
  split.
  - rewrite Hpass by exact HL. apply sequence_some. rewrite map_map. apply map_ext_in.
    intros i Hi. apply in_seq in Hi. destruct (HI i ltac:(lia)) as [HV HN].
    destruct (valid i) eqn:V.
    + specialize (HV eq_refl). rewrite (nth_error_nth_lt q i (-1)) in HV by lia.
      injection HV as HV. rewrite HV. destruct (it_ok m i ltac:(lia) V) as [H1 V1].
      unfold np_get. rewrite np_idx_pos by lia. rewrite Nat2Z.id.
      destruct (HI _ H1) as [HV1 _]. rewrite (HV1 V1), it_add. reflexivity.
    + specialize (HN eq_refl). f_equal.
      rewrite (nth_error_nth_lt q i (-1)) in HN by lia.
      rewrite (nth_error_nth_lt p i (-1)) in HN by (fold n; lia). congruence.
  - split; [now rewrite map_length, seq_length|]. intros i Hi.
    assert (E : nth_error (map (fun i => if valid i then Z.of_nat (it f (m + m) i) else nth i p (-1)) (seq 0 n)) i
                = Some (if valid i then Z.of_nat (it f (m + m) i) else nth i p (-1))).
    { rewrite nth_error_map. rewrite (nth_error_nth_lt _ i 0%nat) by (rewrite seq_length; exact Hi).
      rewrite seq_nth by exact Hi. reflexivity. }
    rewrite E. split; intros V; rewrite V; [reflexivity|].
    symmetry. now apply nth_error_nth_lt.
Qed.

Lemma powered_unique m q q' : powered m q -> powered m q' -> q = q'.
Proof.
  intros [L1 H1] [L2 H2]. apply list_ext. intro i.
  destruct (Nat.lt_ge_cases i n) as [Hi|Hi].
  - destruct (H1 i Hi) as [A1 B1], (H2 i Hi) as [A2 B2]. destruct (valid i).
    + now rewrite A1, A2.
    + now rewrite B1, B2.
  - rewrite (proj2 (nth_error_None q i)), (proj2 (nth_error_None q' i)); auto; lia.
Qed.

Lemma powered_n_stable m q : (n <= m)%nat -> powered m q -> powered (m + m) q.
Proof.
  intros Hm [L H]. split; [exact L|]. intros i Hi. destruct (H i Hi) as [A B]. split; [|exact B].
  intros V. rewrite (A V). do 2 f_equal.
  pose proof (fixed_n i Hi V) as F.
  assert (E : it f m i = it f n i).
  { replace m with ((m - n) + n)%nat by lia. rewrite it_add. now apply it_fix. }
  rewrite it_add, E. symmetry. now apply it_fix.
Qed.

Definition final (q : list Z) : Prop :=
  length q = n /\
  forall i, (i < n)%nat ->
    (valid i = true -> exists r, nth_error q i = Some (Z.of_nat r) /\ reaches p i r) /\
    (valid i = false -> nth_error q i = nth_error p i).

Lemma powered_done m q : (0 < m)%nat -> powered m q -> powered (m + m) q -> final q.
Proof.
  intros Hm [L H] [_ H2]. split; [exact L|]. intros i Hi.
  destruct (H i Hi) as [A B], (H2 i Hi) as [A2 _]. split; [|exact B].
  intros V. exists (it f m i). split; [now apply A|]. apply it_reaches; auto.
  specialize (A V). specialize (A2 V). rewrite A in A2. injection A2 as A2.
  apply Nat2Z.inj in A2. rewrite it_add in A2.
  pose proof (fixed_n i Hi V) as F. destruct (it_ok m i Hi V) as [Hi' V'].
  apply (periodic_is_fixed f m n); [exact Hm|congruence|]. now apply fixed_n.
Qed.

Lemma loop_done (pass : list Z -> option (list Z)) :
  (forall q, length q = n -> pass q = sequence (map (fun i =>
       if valid i then np_get q (nth i q (-1)) else Some (nth i q (-1))) (seq 0 n))) ->
  forall d m q, (0 < m)%nat -> powered m q -> (n <= m * 2 ^ d)%nat ->
  forall fuel, (d < fuel)%nat -> exists q', roots_loop pass fuel q = Done q' /\ final q'.
Proof.
  intros Hpass. induction d as [|d IH]; intros m q Hm HP Hn fuel Hf;
    (destruct fuel as [|fuel]; [lia|]); simpl.
  - destruct (powered_pass pass m q Hpass HP) as (q' & E & HP'). rewrite E.
    assert (q' = q) as ->.
    { apply (powered_unique (m + m)); [exact HP'|]. apply powered_n_stable; [simpl in Hn; lia|exact HP]. }
    replace (zlist_eqb q q) with true by (symmetry; now apply zlist_eqb_eq).
    exists q. split; [reflexivity|]. now apply (powered_done m).
  - destruct (powered_pass pass m q Hpass HP) as (q' & E & HP'). rewrite E.
    destruct (zlist_eqb q' q) eqn:EQ.
    + apply zlist_eqb_eq in EQ. subst q'. exists q. split; [reflexivity|]. now apply (powered_done m).
    + apply (IH (m + m)%nat q'); [lia|exact HP'| |lia].
      simpl in Hn. nia.
Qed.

Lemma powered_init : powered 1 p.
Proof.
  split; [reflexivity|]. intros i Hi. split; [|reflexivity]. intros V. now apply nth_f.
Qed.
End Doubling.

Lemma combine_map_seq {B} (g : bool * Z -> B) (valid : list bool) (q : list Z) :
  length valid = length q ->
  map g (combine valid q) = map (fun i => g (nth i valid false, nth i q (-1))) (seq 0 (length q)).
Proof.
  revert valid. induction q as [|x q IH]; intros [|b valid] H; simpl in *; try discriminate; [reflexivity|].
  f_equal. rewrite IH by congruence. rewrite <- seq_shift, map_map. reflexivity.
Qed.

Lemma map_seq_nth {B} (g : Z -> B) (q : list Z) :
  map g q = map (fun i => g (nth i q (-1))) (seq 0 (length q)).
Proof.
  induction q as [|x q IH]; simpl; [reflexivity|]. f_equal.
  rewrite <- seq_shift, map_map. exact IH.
Qed.

(** Well-formed pointer arrays: entries are -1 (vacuum) or in range and never
    point into the vacuum; every chain ends. *)
Definition good_pointers (p : list Z) : Prop :=
  (forall i x, nth_error p i = Some x -> x <> -1 ->
     0 <= x < Z.of_nat (length p) /\ nth_error p (Z.to_nat x) <> Some (-1)) /\
  (forall i x, nth_error p i = Some x -> x <> -1 -> exists r, reaches p i r).

Theorem get_roots_correct p num_vacuum fuel :
  good_pointers p ->
  (num_vacuum = 0 -> ~ In (-1) p) ->
  (Nat.log2_up (length p) < fuel)%nat ->
  exists q, get_roots num_vacuum fuel p = Done q /\ length q = length p /\
    forall i x, nth_error p i = Some x ->
      (x = -1 -> nth_error q i = Some (-1)) /\
      (x <> -1 -> exists r, nth_error q i = Some (Z.of_nat r) /\ reaches p i r).
Proof.
  intros [G1 G2] Hv Hf.
  set (valid := fun i => negb (nth i p (-1) =? -1)).
  assert (A1 : forall i, (i < length p)%nat -> valid i = true ->
     0 <= nth i p (-1) < Z.of_nat (length p) /\ valid (Z.to_nat (nth i p (-1))) = true).
  { intros i Hi V. unfold valid in *. assert (nth i p (-1) <> -1) by lia.
    destruct (G1 i _ (nth_error_nth_lt p i (-1) Hi) H) as [R N].
    split; [exact R|]. rewrite (nth_error_nth_lt p _ (-1)) in N by lia.
    destruct (nth (Z.to_nat (nth i p (-1))) p (-1) =? -1) eqn:E; [|reflexivity].
    exfalso. apply N. f_equal. lia. }
  assert (A2 : forall i, (i < length p)%nat -> valid i = true -> exists r, reaches p i r).
  { intros i Hi V. unfold valid in V. apply (G2 i (nth i p (-1))); [now apply nth_error_nth_lt|lia]. }
  assert (PW : (length p <= 1 * 2 ^ Nat.log2_up (length p))%nat).
  { rewrite Nat.mul_1_l. destruct (Nat.le_gt_cases (length p) 1) as [L|L].
    - pose proof (Nat.pow_nonzero 2 (Nat.log2_up (length p))). lia.
    - apply Nat.log2_up_spec. exact L. }
  assert (FIN : exists q, get_roots num_vacuum fuel p = Done q /\ final p valid q).
  { unfold get_roots. destruct (num_vacuum =? 0) eqn:E; simpl.
    - assert (AV : forall i, (i < length p)%nat -> valid i = true).
      { intros i Hi. unfold valid. apply negb_true_iff, Z.eqb_neq. intro E'.
        apply (Hv ltac:(lia)). rewrite <- E'. now apply nth_In. }
      eapply (loop_done p valid A1 A2 pass_all); [|apply Nat.lt_0_1|apply (powered_init p valid A1 A2)|exact PW|exact Hf].
      intros q Hq. unfold pass_all. f_equal. rewrite (map_seq_nth _ q), Hq.
      apply map_ext_in. intros i Hi. apply in_seq in Hi. rewrite AV by lia. reflexivity.
    - eapply (loop_done p valid A1 A2); [|apply Nat.lt_0_1|apply (powered_init p valid A1 A2)|exact PW|exact Hf].
      intros q Hq. unfold pass_valid. f_equal.
      rewrite combine_map_seq by now rewrite map_length.
      rewrite Hq. apply map_ext_in. intros i Hi. apply in_seq in Hi. cbn [fst snd].
      rewrite (nth_indep (map _ p) false (negb (-1 =? -1))) by (rewrite map_length; lia).
      rewrite (map_nth (fun x => negb (x =? -1))). reflexivity. }
  destruct FIN as (q & E & L & F). exists q. split; [exact E|]. split; [exact L|].
  intros i x Hx. assert (Hi : (i < length p)%nat) by (apply nth_error_Some; congruence).
  destruct (F i Hi) as [FV FN]. assert (Ex : nth i p (-1) = x) by now apply nth_error_nth.
  split.
  - intros ->. rewrite FN; [exact Hx|]. unfold valid. rewrite Ex. reflexivity.
  - intros N. apply FV. unfold valid. rewrite Ex. lia.
Qed.

Lemma reaches_fun p i r1 : reaches p i r1 -> forall r2, reaches p i r2 -> r1 = r2.
Proof.
  induction 1 as [i E|i j r E R IH]; intros r2 H2.
  - remember i as i0 eqn:Ei. revert E. induction H2 as [k E'|k j r E' R' IH']; intros E; [congruence|].
    subst. rewrite E in E'. injection E' as E'. apply Nat2Z.inj in E'. subst. auto.
  - inversion H2 as [k E'|k j' r' E' R']; subst.
    + rewrite E in E'. injection E' as E'. apply Nat2Z.inj in E'. subst j. now apply IH.
    + rewrite E in E'. injection E' as E'. apply Nat2Z.inj in E'. subst j'. now apply IH.
Qed.

(** ** np.unique and compaction *)
Lemma insert_uniq_in x l y : In y (insert_uniq x l) <-> y = x \/ In y l.
Proof.
  induction l as [|z t IH]; simpl; [intuition|].
  destruct (x <? z) eqn:E1; [simpl; intuition|]. destruct (x =? z) eqn:E2.
  - assert (x = z) by lia. subst. simpl. intuition.
  - simpl. rewrite IH. intuition.
Qed.

Lemma insert_uniq_sorted x l : StronglySorted Z.lt l -> StronglySorted Z.lt (insert_uniq x l).
Proof.
  induction 1 as [|z t S IH F]; simpl; [repeat constructor|].
  destruct (x <? z) eqn:E1.
  - constructor; [constructor; auto|]. constructor; [lia|].
    eapply Forall_impl; [|exact F]. simpl. intros; lia.
  - destruct (x =? z) eqn:E2; [constructor; auto|].
    constructor; [exact IH|]. apply Forall_forall. intros y Hy. apply insert_uniq_in in Hy as [->|Hy]; [lia|].
    rewrite Forall_forall in F. now apply F.
Qed.

Lemma np_unique_in l y : In y (np_unique l) <-> In y l.
Proof.
  induction l as [|x t IH]; simpl; [tauto|]. rewrite insert_uniq_in, IH. intuition.
Qed.

Lemma np_unique_sorted l : StronglySorted Z.lt (np_unique l).
Proof. induction l as [|x t IH]; simpl; [constructor|]. now apply insert_uniq_sorted. Qed.

Lemma index_of_range x l : In x l -> 0 <= index_of x l < Z.of_nat (length l).
Proof.
  induction l as [|y t IH]; intros H; [contradiction|]. cbn [index_of length].
  destruct (x =? y) eqn:E; [lia|]. destruct H as [->|H]; [lia|]. specialize (IH H). lia.
Qed.

Lemma index_of_nth x l : In x l -> nth_error l (Z.to_nat (index_of x l)) = Some x.
Proof.
  induction l as [|y t IH]; intros H; [contradiction|]. cbn [index_of].
  destruct (x =? y) eqn:E.
  - simpl. f_equal. lia.
  - destruct H as [->|H]; [lia|]. pose proof (index_of_range x t H).
    replace (Z.to_nat (1 + index_of x t)) with (S (Z.to_nat (index_of x t))) by lia. simpl. auto.
Qed.

Lemma index_of_inj x y l : In x l -> In y l -> index_of x l = index_of y l -> x = y.
Proof.
  intros Hx Hy E. apply index_of_nth in Hx. apply index_of_nth in Hy. congruence.
Qed.

Lemma index_of_nth_inv l k x : StronglySorted Z.lt l -> nth_error l k = Some x -> index_of x l = Z.of_nat k.
Proof.
  intros S. revert k. induction S as [|y t S IH F]; intros k H; [destruct k; discriminate|].
  cbn [index_of]. destruct k as [|k]; simpl in H.
  - injection H as ->. rewrite Z.eqb_refl. reflexivity.
  - rewrite Forall_forall in F. pose proof (F x (nth_error_In _ _ H)).
    replace (x =? y) with false by lia. rewrite (IH k H). lia.
Qed.

Lemma index_of_mono x y l : StronglySorted Z.lt l -> In x l -> In y l ->
  (index_of x l < index_of y l <-> x < y).
Proof.
  induction 1 as [|z t S IH F]; intros Hx Hy; [contradiction|]. cbn [index_of].
  rewrite Forall_forall in F.
  destruct (x =? z) eqn:E1, (y =? z) eqn:E2.
  - lia.
  - destruct Hy as [->|Hy]; [lia|]. pose proof (index_of_range y t Hy). specialize (F y Hy). lia.
  - destruct Hx as [->|Hx]; [lia|]. pose proof (index_of_range x t Hx). specialize (F x Hx). lia.
  - destruct Hx as [->|Hx]; [lia|]. destruct Hy as [->|Hy]; [lia|]. rewrite <- IH by auto. lia.
Qed.

Definition n_labels (roots : list Z) : nat :=
  length (filter (fun x => negb (x =? -1)) (np_unique roots)).

Lemma sorted_min_head l x : StronglySorted Z.lt l -> In x l -> (forall y, In y l -> x <= y) ->
  exists t, l = x :: t.
Proof.
  intros S Hx Hm. destruct S as [|y t S F]; [contradiction|].
  destruct Hx as [->|Hx]; [eauto|]. rewrite Forall_forall in F.
  specialize (F x Hx). specialize (Hm y (or_introl eq_refl)). lia.
Qed.

Lemma compact_dense roots :
  (forall x, In x roots -> -1 <= x) -> dense_labelling roots (compact roots) (n_labels roots).
Proof.
  intros Hge. unfold compact, n_labels, dense_labelling. set (u := np_unique roots).
  pose proof (np_unique_sorted roots) as SS. fold u in SS.
  assert (Hu : forall i c, nth_error roots i = Some c -> In c u).
  { intros i c H. apply np_unique_in. eapply nth_error_In; eauto. }
  destruct (existsb (Z.eqb (-1)) u) eqn:EX.
  - apply existsb_exists in EX as (m & Hm & Em). assert (m = -1) by lia. subst m.
    destruct (sorted_min_head u (-1) SS Hm) as (t & Et).
    { intros y Hy. apply Hge. now apply np_unique_in. }
    assert (Hidx : forall i c, nth_error roots i = Some c ->
       nth_error (map (fun x => x - 1) (map (fun r => index_of r u) roots)) i = Some (index_of c u - 1)).
    { intros i c H. rewrite map_map, nth_error_map, H. reflexivity. }
    assert (Em1 : index_of (-1) u = 0) by (rewrite Et; reflexivity).
    assert (Hlen : length (filter (fun x => negb (x =? -1)) u) = length t).
    { rewrite Et. simpl. rewrite Et in SS. inversion SS as [|? ? S' F]; subst.
      assert (G : forall l, Forall (Z.lt (-1)) l -> length (filter (fun x => negb (x =? -1)) l) = length l).
      { induction l as [|z l IHl]; intros HF; simpl; [reflexivity|]. inversion HF; subst.
        replace (negb (z =? -1)) with true by lia. simpl. now rewrite IHl. }
      now apply G. }
    split; [now rewrite !map_length|]. split; [|split].
    + intros i c l Hc Hl. rewrite (Hidx i c Hc) in Hl. injection Hl as <-.
      pose proof (Hu i c Hc) as Hin. pose proof (index_of_range c u Hin) as R.
      assert (E0 : index_of c u = 0 <-> c = -1).
      { split; [|intros ->; exact Em1]. intros E. apply (index_of_inj c (-1) u); auto; lia. }
      split; [rewrite <- E0; lia|]. intros N. rewrite Hlen. rewrite Et in R. cbn [length] in R.
      rewrite <- Et in R. assert (index_of c u <> 0) by (rewrite E0; exact N). lia.
    + intros k Hk. rewrite Hlen in Hk.
      assert (exists x, nth_error u (S k) = Some x) as (x & Hx).
      { rewrite Et. simpl. destruct (nth_error t k) eqn:E; eauto.
        apply nth_error_None in E. lia. }
      assert (Hin : In x u) by (eapply nth_error_In; eauto).
      apply (proj1 (np_unique_in roots x)) in Hin. apply In_nth_error in Hin as (i & Hi). exists i.
      rewrite (Hidx i x Hi), (index_of_nth_inv u (S k) x SS Hx). f_equal. lia.
    + intros i j ci cj li lj Hi Hj Hli Hlj. rewrite (Hidx i ci Hi) in Hli. rewrite (Hidx j cj Hj) in Hlj.
      injection Hli as <-. injection Hlj as <-.
      pose proof (index_of_mono ci cj u SS (Hu _ _ Hi) (Hu _ _ Hj)).
      split; [|lia]. split; [|intros ->; reflexivity]. intros E.
      apply (index_of_inj ci cj u); eauto; lia.
  - assert (Hnm : ~ In (-1) u).
    { intro H. assert (existsb (Z.eqb (-1)) u = true) by (apply existsb_exists; exists (-1); split; [exact H|reflexivity]). congruence. }
    assert (Hidx : forall i c, nth_error roots i = Some c ->
       nth_error (map (fun r => index_of r u) roots) i = Some (index_of c u)).
    { intros i c H. rewrite nth_error_map, H. reflexivity. }
    assert (Hlen : length (filter (fun x => negb (x =? -1)) u) = length u).
    { clear -Hnm. induction u as [|z l IHl]; simpl; [reflexivity|].
      assert (z <> -1) by (intros ->; apply Hnm; now left).
      replace (negb (z =? -1)) with true by lia. simpl. rewrite IHl; [reflexivity|].
      intro H'. apply Hnm. now right. }
    split; [now rewrite !map_length|]. split; [|split].
    + intros i c l Hc Hl. rewrite (Hidx i c Hc) in Hl. injection Hl as <-.
      pose proof (Hu i c Hc) as Hin. pose proof (index_of_range c u Hin) as R.
      rewrite Hlen. split; [|lia]. split; [lia|]. intros ->. contradiction.
    + intros k Hk. rewrite Hlen in Hk.
      assert (exists x, nth_error u k = Some x) as (x & Hx).
      { destruct (nth_error u k) eqn:E; eauto. apply nth_error_None in E. lia. }
      assert (Hin : In x u) by (eapply nth_error_In; eauto).
      apply (proj1 (np_unique_in roots x)) in Hin. apply In_nth_error in Hin as (i & Hi). exists i.
      rewrite (Hidx i x Hi), (index_of_nth_inv u k x SS Hx). reflexivity.
    + intros i j ci cj li lj Hi Hj Hli Hlj. rewrite (Hidx i ci Hi) in Hli. rewrite (Hidx j cj Hj) in Hlj.
      injection Hli as <-. injection Hlj as <-.
      pose proof (index_of_mono ci cj u SS (Hu _ _ Hi) (Hu _ _ Hj)).
      split; [|lia]. split; [|intros ->; reflexivity]. intros E.
      apply (index_of_inj ci cj u); eauto.
Qed.
