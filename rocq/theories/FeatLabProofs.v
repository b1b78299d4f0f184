From Coq Require Import QArith Sorted.
From Verif Require Import Base RootsModel UnionModel ChargeModel ChargeProofs FeatLabModel FeatLabSpec.
Local Open Scope nat_scope.

Lemma set_all_ok v basins : forall ba, (forall b, In b basins -> b < length ba) ->
  exists ba', set_all ba basins v = Done ba' /\ length ba' = length ba /\
    forall b, b < length ba -> (In b basins -> nth_error ba' b = Some v) /\ (~ In b basins -> nth_error ba' b = nth_error ba b).
Proof.
  induction basins as [|c t IH]; intros ba H; cbn [set_all].
  - exists ba. split; [reflexivity|]. split; [reflexivity|]. intros b _. split; [intros []|reflexivity].
  - specialize (H c (or_introl eq_refl)) as Hc. apply Nat.ltb_lt in Hc as Hc'. rewrite Hc'.
    destruct (IH (upd ba c v)) as (ba' & E & L & N); [intros b Hb; rewrite upd_length; apply H; now right|].
    exists ba'. split; [exact E|]. rewrite upd_length in L, N. split; [exact L|]. intros b Hb. destruct (N b Hb) as (N1 & N2).
    destruct (in_dec Nat.eq_dec b t) as [I|I].
    + split; [auto|]. intro X. exfalso. apply X. now right.
    + rewrite (N2 I). split.
      * intros [<-|?]; [|contradiction]. rewrite nth_error_upd, Nat.eqb_refl, Hc'. reflexivity.
      * intro X. rewrite nth_error_upd. destruct (Nat.eqb_spec c b) as [->|]; [exfalso; apply X; now left|reflexivity].
Qed.

Lemma NoDup_app_l {A} (l m : list A) : NoDup l -> NoDup m -> (forall x, In x l -> ~ In x m) -> NoDup (l ++ m).
Proof.
  intros N1 N2 H. induction N1 as [|x t N N1 IH]; [exact N2|]. cbn. constructor.
  - rewrite in_app_iff. intros [X|X]; [contradiction|]. exact (H x (or_introl eq_refl) X).
  - apply IH. intros y Hy. apply H. now right.
Qed.

Section L.
Variable bare : nat -> bool.
Variable feats : list lfeature.
Variable natoms : nat.
Variable basin_atoms : list nat.

Lemma order_features_eq l : forall b o,
  order_features bare feats l b o = (b ++ filter (fun i => bare (type_of feats i)) l) ++ (o ++ filter (fun i => negb (bare (type_of feats i))) l).
Proof.
  induction l as [|i t IH]; intros b o; cbn [order_features filter]; [now rewrite !app_nil_r|].
  destruct (bare (type_of feats i)); cbn [negb]; rewrite IH; now rewrite <- ?app_assoc.
Qed.

Lemma type_of_nth i f : nth_error feats i = Some f -> type_of feats i = lf_type f.
Proof. intro H. unfold type_of. now rewrite (nth_error_nth _ _ _ H). Qed.

Lemma by_type_in included i : In i (feature_indices_by_type feats included) <-> exists f, nth_error feats i = Some f /\ In (lf_type f) included.
Proof.
  unfold feature_indices_by_type. rewrite filter_In, in_seq, existsb_exists. split.
  - intros ((_ & H) & t & H1 & H2). cbn in H. apply Nat.eqb_eq in H2. destruct (nth_error feats i) as [f|] eqn:E.
    + exists f. split; [reflexivity|]. rewrite <- (type_of_nth _ _ E), H2. exact H1.
    + apply nth_error_None in E. lia.
  - intros (f & E & H). split; [assert (i < length feats) by (apply nth_error_Some; congruence); lia|].
    exists (lf_type f). split; [exact H|]. apply Nat.eqb_eq. now apply type_of_nth.
Qed.

Lemma sorted_seq n : forall s, StronglySorted lt (seq s n).
Proof.
  induction n as [|n IH]; intro s; cbn; constructor; [apply IH|]. apply Forall_forall. intros x H. apply in_seq in H. lia.
Qed.
Lemma sorted_filter p l : StronglySorted lt l -> StronglySorted lt (filter p l).
Proof.
  induction 1 as [|x t S IH F]; cbn; [constructor|]. destruct (p x); [|exact IH]. constructor; [exact IH|].
  apply Forall_forall. intros y H. apply filter_In in H as (H & _). rewrite Forall_forall in F. now apply F.
Qed.
Lemma sorted_nodup l : StronglySorted lt l -> NoDup l.
Proof.
  induction 1 as [|x t S IH F]; constructor; [|exact IH]. intro H. rewrite Forall_forall in F. specialize (F x H). lia.
Qed.
Lemma sorted_pos l : StronglySorted lt l -> forall p q i j, p < q -> nth_error l p = Some i -> nth_error l q = Some j -> i < j.
Proof.
  induction 1 as [|x t S IH F]; intros p q i j H A B; [destruct p; discriminate|].
  destruct q; [lia|]. destruct p; cbn in A, B.
  - injection A as <-. rewrite Forall_forall in F. apply F. eapply nth_error_In; exact B.
  - eapply IH; [|exact A|exact B]. lia.
Qed.

Lemma selected_ok included o : selection bare feats included o (selected bare feats included o).
Proof.
  assert (S : StronglySorted lt (feature_indices_by_type feats included)) by (apply sorted_filter, sorted_seq).
  unfold selected. destruct o.
  - rewrite order_features_eq. cbn [app]. set (F := feature_indices_by_type feats included) in *.
    pose proof (sorted_filter (fun i => bare (type_of feats i)) F S) as S1.
    pose proof (sorted_filter (fun i => negb (bare (type_of feats i))) F S) as S2.
    split; [|split].
    + apply NoDup_app_l; [now apply sorted_nodup|now apply sorted_nodup|]. intros x H1 H2.
      apply filter_In in H1 as (_ & H1). apply filter_In in H2 as (_ & H2). rewrite H1 in H2. discriminate.
    + intro i. rewrite <- by_type_in. fold F. rewrite in_app_iff, !filter_In. destruct (bare (type_of feats i)); cbn; tauto.
    + intros p q i j f g H A B Ef Eg. set (l1 := filter _ F) in *. set (l2 := filter (fun i => negb _) F) in *.
      assert (B1 : forall p i f, nth_error feats i = Some f -> nth_error (l1 ++ l2) p = Some i -> p < length l1 -> bare (lf_type f) = true).
      { intros p' i' f' E1 E2 Hp. rewrite nth_error_app1 in E2 by exact Hp. apply nth_error_In, filter_In in E2 as (_ & E2).
        now rewrite (type_of_nth _ _ E1) in E2. }
      assert (B2 : forall p i f, nth_error feats i = Some f -> nth_error (l1 ++ l2) p = Some i -> length l1 <= p -> bare (lf_type f) = false).
      { intros p' i' f' E1 E2 Hp. rewrite nth_error_app2 in E2 by exact Hp. apply nth_error_In, filter_In in E2 as (_ & E2).
        rewrite (type_of_nth _ _ E1) in E2. now destruct (bare (lf_type f')). }
      destruct (Nat.lt_ge_cases p (length l1)) as [Hp|Hp].
      * rewrite (B1 p i f Ef A Hp). intro Bg. destruct (Nat.lt_ge_cases q (length l1)) as [Hq|Hq].
        -- rewrite nth_error_app1 in A, B by assumption. exact (sorted_pos _ S1 _ _ _ _ H A B).
        -- rewrite (B2 q j g Eg B Hq) in Bg. discriminate.
      * rewrite (B2 p i f Ef A Hp). assert (Hq : length l1 <= q) by lia. split; [exact (B2 q j g Eg B Hq)|].
        rewrite nth_error_app2 in A, B by assumption. apply (sorted_pos _ S2 (p - length l1) (q - length l1)); [lia|assumption..].
  - split; [now apply sorted_nodup|]. split; [apply by_type_in|]. intros p q i j f g H A B _ _. exact (sorted_pos _ S _ _ _ _ H A B).
Qed.

Variables (labels : list Z) (charges volumes : list Q).
Hypothesis OK : tables_ok feats natoms basin_atoms labels charges volumes.

Lemma owner_unique idx b s s' : NoDup idx ->
  owner feats natoms basin_atoms idx b s -> owner feats natoms basin_atoms idx b s' -> s = s'.
Proof.
  intros ND [(k & i & f & A & B & C & ->)|(A & B)] [(k' & i' & f' & A' & B' & C' & ->)|(A' & B')].
  - assert (i = i') by (eapply (tk_disjoint _ _ _ _ _ _ OK); eassumption). subst. f_equal.
    eapply NoDup_nth_error; [exact ND|apply nth_error_Some; congruence|congruence].
  - exfalso. exact (A' i f (nth_error_In _ _ A) B C).
  - exfalso. exact (A i' f' (nth_error_In _ _ A') B' C').
  - congruence.
Qed.

Lemma relabel_ok : forall l pre ba, NoDup (pre ++ l) -> (forall i, In i (pre ++ l) -> i < length feats) ->
  length ba = length basin_atoms ->
  (forall b, b < length ba -> exists s, nth_error ba b = Some s /\ owner feats natoms basin_atoms pre b s) ->
  exists ba', relabel feats ba (map SAtom (seq 0 natoms) ++ map SFeature pre) (natoms + length pre) l
      = Done (ba', map SAtom (seq 0 natoms) ++ map SFeature (pre ++ l)) /\
    length ba' = length basin_atoms /\
    (forall b, b < length ba' -> exists s, nth_error ba' b = Some s /\ owner feats natoms basin_atoms (pre ++ l) b s).
Proof.
  induction l as [|i t IH]; intros pre ba ND R L O.
  - rewrite app_nil_r. exists ba. auto.
  - cbn [relabel]. assert (Hi : i < length feats) by (apply R, in_or_app; right; now left).
    destruct (nth_error feats i) as [f|] eqn:Ef; [|apply nth_error_None in Ef; lia].
    assert (Eb : basins_of feats i = lf_basins f) by (unfold basins_of; now rewrite (nth_error_nth _ _ _ Ef)).
    destruct (set_all_ok (natoms + length pre) (basins_of feats i) ba) as (b1 & E1 & L1 & N1).
    { intros b Hb. rewrite Eb in Hb. rewrite L. eapply (tk_basins _ _ _ _ _ _ OK); [eapply nth_error_In; exact Ef|exact Hb]. }
    rewrite E1. cbn [obind].
    destruct (IH (pre ++ [i]) b1) as (b2 & E2 & L2 & N2).
    + now rewrite <- app_assoc.
    + now rewrite <- app_assoc.
    + congruence.
    + intros b Hb. rewrite L1 in Hb. destruct (N1 b Hb) as (I & J). rewrite Eb in I, J.
      destruct (in_dec Nat.eq_dec b (lf_basins f)) as [D|D].
      * exists (natoms + length pre). split; [auto|]. left. exists (length pre), i, f.
        rewrite nth_error_app2, Nat.sub_diag by lia. auto.
      * rewrite (J D). destruct (O b Hb) as (s & Es & [(k & i' & f' & A & B & C & ->)|(A & B)]); exists (s) || exists (natoms + k); (split; [exact Es|]).
        -- left. exists k, i', f'. rewrite nth_error_app1 by (apply nth_error_Some; congruence). auto.
        -- right. split; [|exact B]. intros i' f' H E'. apply in_app_or in H as [H|[<-|[]]]; [now apply (A i' f' H)|]. congruence.
    + exists b2. rewrite <- app_assoc in E2, N2. cbn [app] in E2, N2. split; [|auto].
      rewrite <- app_assoc. change [SFeature i] with (map SFeature [i]). rewrite <- map_app.
      replace (S (natoms + length pre)) with (natoms + length (pre ++ [i])) by (rewrite app_length; cbn; lia). exact E2.
Qed.
End L.
