From Coq Require Import QArith Lqa Lia ZifyBool ZifyNat.
From Verif Require Import Base GridModel RootsModel UnionModel ChargeModel ChargeProofs CoordModel CoordMerge BifProofs NearModel WeightModel RefineModel PlaneModel BadelfModel BadelfSpec BadelfProofs BadelfOut.
Local Open Scope Z_scope.

Definition row_sum (row : list (Z * Q)) : Q := qsum (map snd row).
Definition tied (x : voxel * list (Z * Q)) : bool := snd (best_of (used (snd x)) 0 (-1) false).
Definition first_label (x : voxel * list (Z * Q)) : Z := fst (best_of (used (snd x)) 0 (-1) false).

Lemma used_pos row : (forall s f, In (s, f) row -> (0 < f)%Q) -> used row = row.
Proof.
  induction row as [|[s f] t IH]; intros H; [reflexivity|]. cbn. destruct (Qeq_bool f 0) eqn:E.
  - apply Qeq_bool_eq in E. pose proof (H s f (or_introl eq_refl)). lra.
  - f_equal. apply IH. intros; eapply H; right; eassumption.
Qed.
Lemma used_in row s f : In (s, f) (used row) -> In (s, f) row.
Proof. induction row as [|[a b] t IH]; cbn; [auto|]. destruct (Qeq_bool b 0); cbn; [contradiction|]. intros [H|H]; auto. Qed.

(** ** What successful additions do to the totals *)
Lemma np_idx_lt n i k : np_idx n i = Some k -> (k < n)%nat.
Proof.
  unfold np_idx. destruct ((0 <=? i) && (i <? Z.of_nat n)) eqn:A; [intros [= <-]; lia|].
  destruct ((- Z.of_nat n <=? i) && (i <? 0)) eqn:B; [intros [= <-]; lia|discriminate].
Qed.
Lemma np_add_done l i x l' : np_add l i x = Done l' -> length l' = length l /\ (qsum l' == qsum l + x)%Q.
Proof.
  unfold np_add, np_get, np_set. destruct (np_idx (length l) i) as [k|] eqn:K; [|discriminate]. apply np_idx_lt in K. cbn.
  rewrite (nth_error_nth_lt l k 0%Q K). cbn. intros [= <-]. split; [apply upd_length|]. rewrite qsum_upd by exact K. ring.
Qed.
Lemma give_sum : forall row c ch vo ch' vo', give row c ch vo = Done (ch', vo') ->
  length ch' = length ch /\ length vo' = length vo /\ (qsum ch' == qsum ch + c * row_sum row)%Q /\ (qsum vo' == qsum vo + row_sum row)%Q.
Proof.
  unfold row_sum. induction row as [|[s f] t IH]; intros c ch vo ch' vo' H; cbn [give] in H.
  - injection H as <- <-. cbn. repeat split; ring.
  - destruct (np_add ch s (c * f)%Q) as [ch1| |] eqn:A; cbn in H; try discriminate. destruct (np_add vo s f) as [vo1| |] eqn:B; cbn in H; try discriminate.
    apply np_add_done in A, B. destruct A as [A1 A2], B as [B1 B2]. apply IH in H. destruct H as (H1 & H2 & H3 & H4). cbn [map snd].
    repeat split; [congruence|congruence| |]; rewrite ?H3, ?H4, ?A2, ?B2, qsum_cons; ring.
Qed.

Lemma give_done num : forall row c ch vo, length ch = num -> length vo = num -> (forall s f, In (s, f) row -> 0 <= s < Z.of_nat num) ->
  exists ch' vo', give row c ch vo = Done (ch', vo') /\ length ch' = num /\ length vo' = num /\
    forall s, (s < num)%nat -> (nth s ch' 0 == nth s ch 0 + c * share (Z.of_nat s) row)%Q /\ (nth s vo' 0 == nth s vo 0 + share (Z.of_nat s) row)%Q.
Proof.
  unfold share. induction row as [|[s f] t IH]; intros c ch vo LC LV R; cbn [give].
  - exists ch, vo. repeat split; auto; cbn; ring.
  - pose proof (R s f (or_introl eq_refl)) as RS. rewrite !np_add_spec by lia. cbn [obind].
    destruct (IH c (add_at ch (Z.to_nat s) (c * f)%Q) (add_at vo (Z.to_nat s) f)) as (ch' & vo' & D & L1 & L2 & S);
      [now rewrite add_at_length|now rewrite add_at_length|intros; eapply R; right; eassumption|].
    exists ch', vo'. repeat split; auto; destruct (S s0) as [A B]; auto; rewrite ?A, ?B, nth_add_at by lia; cbn [map]; rewrite qsum_cons;
      (destruct (s =? Z.of_nat s0) eqn:K; [replace (Nat.eqb (Z.to_nat s) s0) with true by lia; replace (Z.to_nat s) with s0 by lia
                                          |replace (Nat.eqb (Z.to_nat s) s0) with false by lia]); ring.
Qed.

Definition unit_row (x : voxel * list (Z * Q)) : Prop := (row_sum (used (snd x)) == 1)%Q.

Lemma first_pass_sum data : forall l st ties st' ties', first_pass data l st ties = Done (st', ties') -> Forall unit_row l ->
  ties' = ties ++ filter tied l /\ length (a_ch st') = length (a_ch st) /\ length (a_vo st') = length (a_vo st) /\ length (a_approx st') = length (a_approx st) /\
  (qsum (a_ch st') == qsum (a_ch st) + qsum (map (fun x => if tied x then 0 else rd3 data (fst x)) l))%Q /\
  (qsum (a_vo st') == qsum (a_vo st) + qsum (map (fun x => if tied x then 0 else 1) l))%Q.
Proof.
  induction l as [|[v row] t IH]; intros st ties st' ties' H F; cbn [first_pass] in H.
  - injection H as <- <-. cbn. rewrite app_nil_r. repeat split; ring.
  - inversion F as [|? ? U F']; subst. unfold unit_row in U. cbn [snd] in U.
    destruct (best_of (used row) 0 (-1) false) as [site tie] eqn:B.
    assert (T : tied (v, row) = tie) by (unfold tied; cbn [snd]; now rewrite B). cbn [filter map]. rewrite T. destruct tie.
    + apply IH in H; [|exact F']. destruct H as (H1 & H2 & H3 & H4 & H5 & H6).
      rewrite <- app_assoc in H1. repeat split; auto; rewrite ?H5, ?H6, qsum_cons; ring.
    + destruct (np_add (a_approx st) site (rd3 data v)) as [ap| |] eqn:A; cbn in H; try discriminate.
      destruct (give (used row) (rd3 data v) (a_ch st) (a_vo st)) as [[ch vo]| |] eqn:G; cbn in H; try discriminate.
      apply np_add_done in A. apply give_sum in G. destruct A as [A1 A2], G as (G1 & G2 & G3 & G4).
      apply IH in H; [|exact F']. cbn in H. destruct H as (H1 & H2 & H3 & H4 & H5 & H6). cbn [fst].
      repeat split; try congruence; rewrite ?H5, ?H6, ?G3, ?G4, U, qsum_cons; ring.
Qed.

Lemma second_pass_sum data : forall l cur st st', second_pass data l cur st = Done st' -> (l <> [] -> (row_sum (used cur) == 1)%Q) -> Forall unit_row l ->
  length (a_ch st') = length (a_ch st) /\ length (a_vo st') = length (a_vo st) /\
  (qsum (a_ch st') == qsum (a_ch st) + qsum (map (fun x => rd3 data (fst x)) l))%Q /\
  (qsum (a_vo st') == qsum (a_vo st) + qsum (map (fun x => 1) l))%Q.
Proof.
  induction l as [|[v row] t IH]; intros cur st st' H C F; cbn [second_pass] in H.
  - injection H as <-. cbn. repeat split; ring.
  - inversion F as [|? ? U F']; subst. unfold unit_row in U. cbn [snd] in U.
    destruct (give (used cur) (rd3 data v) (a_ch st) (a_vo st)) as [[ch vo]| |] eqn:G; cbn in H; try discriminate.
    destruct (improve (used row) (rd3 data v) ch (a_approx st) (-1) (-1)) as [site| |] eqn:I; cbn in H; try discriminate.
    destruct (np_add (a_approx st) site (rd3 data v)) as [ap| |] eqn:A; cbn in H; try discriminate.
    apply give_sum in G. destruct G as (G1 & G2 & G3 & G4). apply IH in H; [|auto|exact F']. cbn in H. destruct H as (H2 & H3 & H5 & H6). cbn [map fst].
    specialize (C ltac:(discriminate)). repeat split; try congruence; rewrite ?H5, ?H6, ?G3, ?G4, C, qsum_cons; ring.
Qed.

(** ** When the passes succeed *)
Lemma best_of_in : forall row bf bs tie s t, best_of row bf bs tie = (s, t) -> s = bs \/ exists f, In (s, f) row.
Proof.
  induction row as [|[a f] u IH]; intros bf bs tie s t H; cbn in H; [injection H as <- <-; now left|].
  destruct (Qltb (bf + tol) f).
  - destruct (IH _ _ _ _ _ H) as [->|(g & G)]; right; [exists f; now left|exists g; now right].
  - destruct (Qltb (bf - tol) f); destruct (IH _ _ _ _ _ H) as [->|(g & G)]; auto; right; exists g; now right.
Qed.

Lemma rd3_set3_same {A} (f : arr3 A) v x : rd3 (set3 f v x) v = x.
Proof. destruct v as [[i j] k]. cbn. now rewrite !Z.eqb_refl. Qed.
Lemma rd3_set3_other {A} (f : arr3 A) v w x : w <> v -> rd3 (set3 f v x) w = rd3 f w.
Proof.
  destruct v as [[i j] k], w as [[a b] c]. intros N. cbn. destruct ((a =? i) && (b =? j) && (c =? k)) eqn:E; [|reflexivity].
  exfalso. apply N. repeat f_equal; lia.
Qed.

Lemma np_add_ok num l i x : length l = num -> (0 < num)%nat -> -1 <= i < Z.of_nat num -> exists l', np_add l i x = Done l' /\ length l' = num.
Proof.
  intros L N R. destruct (Z.eq_dec i (-1)) as [->|NE].
  - rewrite np_add_last by lia. eexists. split; [reflexivity|]. now rewrite add_at_length.
  - rewrite np_add_spec by lia. eexists. split; [reflexivity|]. now rewrite add_at_length.
Qed.

Definition row_in (num : nat) (x : voxel * list (Z * Q)) : Prop := forall s f, In (s, f) (snd x) -> 0 <= s < Z.of_nat num.

Lemma first_pass_done data num : (0 < num)%nat -> forall l st ties, length (a_ch st) = num -> length (a_vo st) = num -> length (a_approx st) = num ->
  Forall (row_in num) l ->
  exists st', first_pass data l st ties = Done (st', ties ++ filter tied l) /\
    length (a_ch st') = num /\ length (a_vo st') = num /\ length (a_approx st') = num /\
    (forall s, (s < num)%nat ->
      (nth s (a_ch st') 0 == nth s (a_ch st) 0 + qsum (map (fun x => if tied x then 0 else rd3 data (fst x) * share (Z.of_nat s) (used (snd x))) l))%Q /\
      (nth s (a_vo st') 0 == nth s (a_vo st) 0 + qsum (map (fun x => if tied x then 0 else share (Z.of_nat s) (used (snd x))) l))%Q) /\
    (forall v, ~ In v (map fst (filter (fun x => negb (tied x)) l)) -> rd3 (a_labels st') v = rd3 (a_labels st) v) /\
    (NoDup (map fst l) -> forall x, In x l -> tied x = false -> rd3 (a_labels st') (fst x) = first_label x).
Proof.
  intros N. induction l as [|[v row] t IH]; intros st ties LC LV LA F; cbn [first_pass].
  - exists st. rewrite app_nil_r. repeat split; auto; try (cbn; ring). intros _ x [].
  - inversion F as [|? ? RI F']; subst. unfold row_in in RI. cbn [snd] in RI.
    destruct (best_of (used row) 0 (-1) false) as [site tie] eqn:B.
    assert (T : tied (v, row) = tie) by (unfold tied; cbn [snd]; now rewrite B).
    assert (FL : first_label (v, row) = site) by (unfold first_label; cbn [snd]; now rewrite B).
    cbn [filter map]. rewrite T. destruct tie; cbn [negb].
    + destruct (IH st (ties ++ [(v, row)]) eq_refl LV LA F') as (st' & D & L1 & L2 & L3 & S & U & W).
      exists st'. rewrite <- app_assoc in D. split; [exact D|]. repeat split; auto.
      * destruct (S s H) as [A _]. rewrite A, qsum_cons. ring.
      * destruct (S s H) as [_ A]. rewrite A, qsum_cons. ring.
      * intros ND x [<-|X] TX; [congruence|]. cbn in ND. inversion ND; subst. apply W; auto.
    + assert (RS : -1 <= site < Z.of_nat (length (a_ch st))).
      { apply best_of_in in B. destruct B as [->|(f & B)]; [lia|]. apply used_in in B. apply RI in B. lia. }
      destruct (np_add_ok _ (a_approx st) site (rd3 data v) LA N RS) as (ap & -> & LAP). cbn [obind].
      destruct (give_done _ (used row) (rd3 data v) (a_ch st) (a_vo st) eq_refl LV) as (ch & vo & -> & L1 & L2 & SH).
      { intros s f I. apply used_in in I. now apply RI in I. }
      cbn [obind]. destruct (IH (Acc (set3 (a_labels st) v site) ch vo ap) ties L1 L2 LAP F') as (st' & D & M1 & M2 & M3 & S & U & W).
      exists st'. split; [exact D|]. cbn [a_ch a_vo a_approx a_labels fst snd] in *. repeat split; auto.
      * destruct (S s H) as [A _]. destruct (SH s H) as [A' _]. rewrite A, A', qsum_cons. ring.
      * destruct (S s H) as [_ A]. destruct (SH s H) as [_ A']. rewrite A, A', qsum_cons. ring.
      * intros w NI. rewrite U; [|intros X; apply NI; now right]. apply rd3_set3_other. intros ->. apply NI. now left.
      * intros ND x [<-|X] TX.
        -- cbn [fst]. rewrite U, FL; [apply rd3_set3_same|]. intros X. inversion ND as [|? ? NI _]; subst. apply NI.
           apply in_map_iff in X. destruct X as (y & E & Y). apply filter_In in Y. apply in_map_iff. exists y. split; [exact E|apply Y].
        -- inversion ND; subst. now apply W.
Qed.

Lemma improve_done num : forall row charge ch ap best site, length ch = num -> length ap = num ->
  (forall s f, In (s, f) row -> 0 <= s < Z.of_nat num /\ (0 < nth (Z.to_nat s) ch 0)%Q) ->
  exists r, improve row charge ch ap best site = Done r /\ (r = site \/ exists f, In (r, f) row).
Proof.
  induction row as [|[s f] t IH]; intros charge ch ap best site LC LA R; cbn [improve]; [exists site; auto|].
  assert (RT : forall s f, In (s, f) t -> 0 <= s < Z.of_nat num /\ (0 < nth (Z.to_nat s) ch 0)%Q) by (intros; eapply R; right; eassumption).
  destruct (Qltb f (0 - tol)).
  - destruct (IH charge ch ap best site LC LA RT) as (r & D & [->|(g & G)]); exists r || exists site; (split; [exact D|]); [now left|right; exists g; now right].
  - destruct (R s f (or_introl eq_refl)) as [RS PS]. unfold np_get. rewrite LA, LC, !np_idx_pos by exact RS.
    rewrite (nth_error_nth_lt ap (Z.to_nat s) 0%Q) by lia. rewrite (nth_error_nth_lt ch (Z.to_nat s) 0%Q) by lia. cbn [oget obind].
    destruct (Qeq_bool (nth (Z.to_nat s) ch 0%Q) 0) eqn:Z0; [apply Qeq_bool_eq in Z0; lra|].
    set (imp := (_ / _)%Q). destruct (Qltb best imp).
    + destruct (IH charge ch ap imp s LC LA RT) as (r & D & [->|(g & G)]); (eexists; split; [exact D|]); right; [exists f; now left|exists g; now right].
    + destruct (IH charge ch ap best site LC LA RT) as (r & D & [->|(g & G)]); (eexists; split; [exact D|]); [now left|right; exists g; now right].
Qed.

Definition row_pos (x : list (Z * Q)) : Prop := forall s f, In (s, f) x -> (0 < f)%Q.
Lemma share_nonneg s row : row_pos row -> (0 <= share s row)%Q.
Proof.
  intros P. unfold share. apply qsum_nonneg. intros x X. apply in_map_iff in X. destruct X as ([a f] & <- & I). destruct (a =? s); [|lra].
  apply Qlt_le_weak. eapply P. exact I.
Qed.

(** Sites present in the rows have a positive charge, so no division by zero happens. *)
Lemma second_pass_done data num (present : Z -> Prop) : (0 < num)%nat -> forall l cur st,
  length (a_ch st) = num -> length (a_vo st) = num -> length (a_approx st) = num ->
  (forall x, In x l -> (0 <= rd3 data (fst x))%Q) ->
  (forall s, present s -> 0 <= s < Z.of_nat num /\ (0 < nth (Z.to_nat s) (a_ch st) 0)%Q) ->
  (forall row, row = cur \/ In row (map snd l) -> row_pos row /\ forall s f, In (s, f) row -> present s) ->
  exists st', second_pass data l cur st = Done st' /\
    (forall v, ~ In v (map fst l) -> rd3 (a_labels st') v = rd3 (a_labels st) v) /\
    (NoDup (map fst l) -> forall x, In x l -> rd3 (a_labels st') (fst x) = -1 \/ exists f, In (rd3 (a_labels st') (fst x), f) (snd x)).
Proof.
  intros N. induction l as [|[v row] t IH]; intros cur st LC LV LA DP PR RP; cbn [second_pass].
  - exists st. repeat split; auto. intros _ x [].
  - destruct (RP cur (or_introl eq_refl)) as [CP CS]. destruct (RP row) as [XP XS]; [right; now left|].
    assert (C0 : (0 <= rd3 data v)%Q) by (apply (DP (v, row)); now left).
    destruct (give_done num (used cur) (rd3 data v) (a_ch st) (a_vo st) LC LV) as (ch & vo & -> & L1 & L2 & SH).
    { intros s f I. apply used_in in I. apply CS in I. now apply PR in I. }
    cbn [obind]. assert (PR' : forall s, present s -> 0 <= s < Z.of_nat num /\ (0 < nth (Z.to_nat s) ch 0)%Q).
    { intros s S. destruct (PR s S) as [A B]. split; [exact A|]. destruct (SH (Z.to_nat s)) as [E _]; [lia|]. rewrite E.
      rewrite (used_pos cur CP). pose proof (share_nonneg (Z.of_nat (Z.to_nat s)) cur CP).
      pose proof (Qmult_le_0_compat _ _ C0 H). lra. }
    destruct (improve_done num (used row) (rd3 data v) ch (a_approx st) (-1) (-1) L1 LA) as (r & -> & RR).
    { intros s f I. apply used_in in I. apply XS in I. now apply PR'. }
    cbn [obind]. assert (RS : -1 <= r < Z.of_nat num).
    { destruct RR as [->|(f & I)]; [lia|]. apply used_in in I. apply XS in I. apply PR in I. lia. }
    destruct (np_add_ok num (a_approx st) r (rd3 data v) LA N RS) as (ap & -> & LAP). cbn [obind].
    destruct (IH row (Acc (set3 (a_labels st) v r) ch vo ap)) as (st' & D & U & W); auto.
    + intros; apply DP; now right.
    + intros rw [->|I]; [now split|]. apply RP. right. now right.
    + exists st'. split; [exact D|]. cbn [a_labels map fst] in *. split.
      * intros w NI. rewrite U; [|intros X; apply NI; now right]. apply rd3_set3_other. intros ->. apply NI. now left.
      * intros ND x [<-|X]; inversion ND as [|? ? NI ND']; subst; [|now apply W]. cbn [fst snd]. rewrite U by exact NI. rewrite rd3_set3_same.
        destruct RR as [->|(f & I)]; [now left|]. right. exists f. now apply used_in in I.
Qed.

(** ** The label of a voxel without tie *)
Lemma best_of_other : forall row bf bs tie s f, (forall t g, In (t, g) row -> t <> s -> (g + tol < f)%Q) -> (forall g, In (s, g) row -> (g == f)%Q) ->
  NoDup (map fst row) -> (In (s, f) row /\ (bf + tol < f)%Q) \/ (~ In s (map fst row) /\ bs = s /\ tie = false /\ (bf == f)%Q) ->
  best_of row bf bs tie = (s, false).
Proof.
  induction row as [|[t g] u IH]; intros bf bs tie s f O E ND H; cbn [best_of].
  - destruct H as [[[] _]|(_ & -> & -> & _)]. reflexivity.
  - inversion ND as [|? ? NI ND']; subst.
    assert (O' : forall t0 g0, In (t0, g0) u -> t0 <> s -> (g0 + tol < f)%Q) by (intros; eapply O; [right; eassumption|assumption]).
    assert (E' : forall g0, In (s, g0) u -> (g0 == f)%Q) by (intros; apply E; now right).
    assert (TP : (0 < tol)%Q) by reflexivity.
    destruct H as [[[H|H] B]|(H & -> & -> & B)].
    + injection H as -> ->. destruct (Qltb_spec (bf + tol) f); [|lra]. apply (IH f s false s f O' E' ND'). right. repeat split; auto.
    + assert (NE : t <> s) by (intros ->; apply NI; change s with (fst (s, f)); now apply in_map).
      pose proof (O t g (or_introl eq_refl) NE) as OT.
      destruct (Qltb_spec (bf + tol) g); [apply (IH g t false s f O' E' ND'); left; split; [exact H|lra]|].
      destruct (Qltb (bf - tol) g); apply (IH _ _ _ s f O' E' ND'); left; split; auto.
    + assert (NE : t <> s) by (intros ->; apply H; now left). pose proof (O t g (or_introl eq_refl) NE) as OT.
      destruct (Qltb_spec (bf + tol) g); [lra|]. destruct (Qltb_spec (bf - tol) g); [lra|].
      apply (IH bf s false s f O' E' ND'). right. repeat split; auto. intros X. apply H. now right.
Qed.
