From Verif Require Import Base ChargeModel.
From Coq Require Import ZifyBool ZifyNat.

(** ** accumulation *)
Lemma add_at_length acc b x : length (add_at acc b x) = length acc.
Proof. apply upd_length. Qed.

Lemma nth_add_at acc b x j : (b < length acc)%nat ->
  nth j (add_at acc b x) 0%Q = if Nat.eqb b j then (nth b acc 0 + x)%Q else nth j acc 0%Q.
Proof.
  intros H. unfold add_at. rewrite nth_upd. apply Nat.ltb_lt in H. rewrite H, andb_true_r. reflexivity.
Qed.

Lemma qsum_upd acc b v : (b < length acc)%nat ->
  (qsum (upd acc b v) == qsum acc - nth b acc 0 + v)%Q.
Proof.
  revert b. induction acc as [|x t IH]; intros [|b] H; simpl in *; try lia.
  - ring.
  - rewrite IH by lia. ring.
Qed.

Lemma qsum_add_at acc b x : (b < length acc)%nat -> (qsum (add_at acc b x) == qsum acc + x)%Q.
Proof. intros H. unfold add_at. rewrite qsum_upd by exact H. ring. Qed.

Lemma qsum_repeat0 n : (qsum (repeat 0%Q n) == 0)%Q.
Proof. induction n as [|n IH]; simpl; [reflexivity|]. rewrite IH. ring. Qed.

Lemma nth_repeat0 n j : nth j (repeat 0%Q n) 0%Q = 0%Q.
Proof. revert j. induction n as [|n IH]; intros [|j]; simpl; auto. Qed.

Lemma qsum_map_div (t : Q) l : (qsum (map (fun c => (c / t)%Q) l) == qsum l / t)%Q.
Proof.
  induction l as [|x l IH]; simpl; [unfold Qdiv; ring|]. rewrite IH. unfold Qdiv. ring.
Qed.

Lemma qsum_map_scale_div (a t : Q) l : (qsum (map (fun c => (c * a / t)%Q) l) == qsum l * a / t)%Q.
Proof.
  induction l as [|x l IH]; simpl; [unfold Qdiv; ring|]. rewrite IH. unfold Qdiv. ring.
Qed.

(** ** integration *)
Definition labels_ok (n : nat) (labels : list Z) : Prop := Forall (fun l => l < Z.of_nat n) labels.

Lemma integ_inv n l : forall st,
  length (i_charges st) = n -> length (i_volumes st) = n ->
  Forall (fun cl : Q * Z => snd cl < Z.of_nat n) l ->
  let st' := fold_left integ_step l st in
  length (i_charges st') = n /\ length (i_volumes st') = n /\
  (forall b, (b < n)%nat ->
     (nth b (i_charges st') 0 == nth b (i_charges st) 0 +
        qsum (map (fun cl : Q * Z => if snd cl =? Z.of_nat b then fst cl else 0) l))%Q /\
     (nth b (i_volumes st') 0 == nth b (i_volumes st) 0 +
        qsum (map (fun cl : Q * Z => if snd cl =? Z.of_nat b then 1 else 0) l))%Q) /\
  (i_vcharge st' == i_vcharge st + qsum (map (fun cl : Q * Z => if (snd cl <? 0)%Z then fst cl else 0) l))%Q /\
  (i_vvolume st' == i_vvolume st + qsum (map (fun cl : Q * Z => if (snd cl <? 0)%Z then 1 else 0) l))%Q.
Proof.
  induction l as [|[c lab] t IH]; intros st HC HV HF.
  - simpl. repeat split; auto; ring.
  - inversion HF as [|? ? Hlab HF']; subst. cbn [snd] in Hlab. cbn [fold_left].
    destruct (lab <? 0) eqn:E.
    + specialize (IH (integ_step st (c, lab))). unfold integ_step in IH at 1 2. rewrite E in IH. cbn [i_charges i_volumes] in IH.
      specialize (IH eq_refl HV HF'). cbn zeta in IH. unfold integ_step in *. rewrite E in *. cbn [i_charges i_volumes i_vcharge i_vvolume] in *.
      destruct IH as (L1 & L2 & B & VC & VV). repeat split; auto.
      * rewrite (proj1 (B b H)). cbn [map]; rewrite qsum_cons; cbn [fst snd].
        replace (lab =? Z.of_nat b) with false by lia. ring.
      * rewrite (proj2 (B b H)). cbn [map]; rewrite qsum_cons; cbn [fst snd].
        replace (lab =? Z.of_nat b) with false by lia. ring.
      * rewrite VC. cbn [map]; rewrite qsum_cons; cbn [fst snd]. rewrite E. ring.
      * rewrite VV. cbn [map]; rewrite qsum_cons; cbn [fst snd]. rewrite E. ring.
    + assert (Hk : (Z.to_nat lab < length (i_charges st))%nat) by lia.
      assert (Hk2 : (Z.to_nat lab < length (i_volumes st))%nat) by lia.
      specialize (IH (integ_step st (c, lab))). unfold integ_step in IH at 1 2. rewrite E in IH. cbn [i_charges i_volumes] in IH.
      rewrite !add_at_length in IH. specialize (IH eq_refl HV HF'). cbn zeta in IH.
      unfold integ_step in *. rewrite E in *. cbn [i_charges i_volumes i_vcharge i_vvolume] in *.
      destruct IH as (L1 & L2 & B & VC & VV). repeat split; auto.
      * rewrite (proj1 (B b H)), nth_add_at by exact Hk. cbn [map]; rewrite qsum_cons; cbn [fst snd].
        destruct (Nat.eqb_spec (Z.to_nat lab) b) as [<-|Hne].
        -- replace (lab =? Z.of_nat (Z.to_nat lab)) with true by lia. ring.
        -- replace (lab =? Z.of_nat b) with false by lia. ring.
      * rewrite (proj2 (B b H)), nth_add_at by exact Hk2. cbn [map]; rewrite qsum_cons; cbn [fst snd].
        destruct (Nat.eqb_spec (Z.to_nat lab) b) as [<-|Hne].
        -- replace (lab =? Z.of_nat (Z.to_nat lab)) with true by lia. ring.
        -- replace (lab =? Z.of_nat b) with false by lia. ring.
      * rewrite VC. cbn [map]; rewrite qsum_cons; cbn [fst snd]. rewrite E. ring.
      * rewrite VV. cbn [map]; rewrite qsum_cons; cbn [fst snd]. rewrite E. ring.
Qed.

Lemma combine_Forall_snd {A} (P : Z -> Prop) (l : list A) labels :
  Forall P labels -> Forall (fun cl : A * Z => P (snd cl)) (combine l labels).
Proof.
  intros H. revert l. induction H as [|x t Hx _ IH]; intros [|a l]; simpl; constructor; auto.
Qed.

Lemma nth_map_div (f : Q -> Q) l b : (b < length l)%nat -> nth b (map f l) 0%Q = f (nth b l 0%Q).
Proof.
  intros H. rewrite (nth_indep _ 0%Q (f 0%Q)) by now rewrite map_length. apply map_nth.
Qed.

Theorem integration_exact data labels vol n :
  length labels = length data -> labels_ok n labels ->
  let r := get_basin_charges_and_volumes data labels vol n in
  let N := inject_Z (Z.of_nat (length data)) in
  length (i_charges r) = n /\ length (i_volumes r) = n /\
  (forall b, (b < n)%nat ->
     (nth b (i_charges r) 0 ==
        qsum (map (fun cl : Q * Z => if snd cl =? Z.of_nat b then fst cl else 0) (combine data labels)) / N)%Q /\
     (nth b (i_volumes r) 0 ==
        qsum (map (fun cl : Q * Z => if snd cl =? Z.of_nat b then 1 else 0) (combine data labels)) * vol / N)%Q) /\
  (i_vcharge r == qsum (map (fun cl : Q * Z => if (snd cl <? 0)%Z then fst cl else 0) (combine data labels)) / N)%Q /\
  (i_vvolume r == qsum (map (fun cl : Q * Z => if (snd cl <? 0)%Z then 1 else 0) (combine data labels)) * vol / N)%Q.
Proof.
  intros HL Hok. unfold get_basin_charges_and_volumes. cbn zeta.
  set (st0 := {| i_charges := repeat 0%Q n; i_volumes := repeat 0%Q n; i_vcharge := 0%Q; i_vvolume := 0%Q |}).
  pose proof (integ_inv n (combine data labels) st0) as I. cbn zeta in I.
  cbn [i_charges i_volumes i_vcharge i_vvolume st0] in I. rewrite repeat_length in I.
  specialize (I eq_refl eq_refl (combine_Forall_snd _ data labels Hok)).
  destruct I as (L1 & L2 & B & VC & VV). cbn [i_charges i_volumes i_vcharge i_vvolume].
  rewrite !map_length. repeat split; auto.
  - rewrite nth_map_div by (rewrite L1; exact H). rewrite (proj1 (B b H)), nth_repeat0. unfold Qdiv. ring.
  - rewrite nth_map_div by (rewrite L2; exact H). rewrite (proj2 (B b H)), nth_repeat0. unfold Qdiv. ring.
  - rewrite VC. unfold Qdiv. ring.
  - rewrite VV. unfold Qdiv. ring.
Qed.

Lemma qsum_nth_seq l : (qsum l == qsum (map (fun b => nth b l 0) (seq 0 (length l))))%Q.
Proof.
  induction l as [|x t IH]; simpl; [reflexivity|]. rewrite <- seq_shift, map_map. rewrite IH. reflexivity.
Qed.

Lemma sum_by_label {A} (amount : A -> Q) (label : A -> Z) n (l : list A) :
  (forall a, In a l -> label a < Z.of_nat n) ->
  (qsum (map (fun b => qsum (map (fun a => if label a =? Z.of_nat b then amount a else 0) l)) (seq 0 n)) +
   qsum (map (fun a => if (label a <? 0)%Z then amount a else 0) l) == qsum (map amount l))%Q.
Proof.
  intros H. rewrite qsum_swap, <- qsum_map_plus. apply qsum_map_ext. intros a Ha.
  specialize (H a Ha). destruct (label a <? 0) eqn:E.
  - rewrite (qsum_map_ext _ (fun _ => 0%Q)).
    + rewrite qsum_map_zero. ring.
    + intros b _. replace (label a =? Z.of_nat b) with false by lia. reflexivity.
  - rewrite (qsum_map_ext _ (fun b => if Nat.eqb (Z.to_nat (label a)) b then amount a else 0%Q)).
    + rewrite qsum_indicator by lia. ring.
    + intros b _. destruct (Nat.eqb_spec (Z.to_nat (label a)) b).
      * replace (label a =? Z.of_nat b) with true by lia. reflexivity.
      * replace (label a =? Z.of_nat b) with false by lia. reflexivity.
Qed.

Lemma map_fst_combine (data : list Q) (labels : list Z) : length labels = length data ->
  map fst (combine data labels) = data.
Proof.
  revert labels. induction data as [|x t IH]; intros [|l ls] H; simpl in *; try discriminate; [reflexivity|].
  f_equal. apply IH. congruence.
Qed.

Lemma qsum_ones {A} (l : list A) : (qsum (map (fun _ => 1%Q) l) == inject_Z (Z.of_nat (length l)))%Q.
Proof.
  induction l as [|x t IH]; [reflexivity|]. cbn [map qsum fold_right length]. rewrite Nat2Z.inj_succ.
  fold (qsum (map (fun _ : A => 1%Q) t)). rewrite IH. unfold Z.succ. rewrite inject_Z_plus. ring.
Qed.

Theorem integration_conserves data labels vol n :
  length labels = length data -> labels_ok n labels -> data <> [] ->
  let r := get_basin_charges_and_volumes data labels vol n in
  (qsum (i_charges r) + i_vcharge r == qsum data / inject_Z (Z.of_nat (length data)))%Q /\
  (qsum (i_volumes r) + i_vvolume r == vol)%Q.
Proof.
  intros HL Hok Hne. pose proof (integration_exact data labels vol n HL Hok) as I. cbn zeta in *.
  set (r := get_basin_charges_and_volumes data labels vol n) in *.
  destruct I as (L1 & L2 & B & VC & VV).
  set (N := inject_Z (Z.of_nat (length data))) in *.
  assert (HN : ~ (N == 0)%Q).
  { unfold N. destruct data; [congruence|]. unfold Qeq. simpl. lia. }
  assert (Hlt : forall a, In a (combine data labels) -> snd a < Z.of_nat n).
  { intros a Ha. pose proof (combine_Forall_snd _ data labels Hok) as F. rewrite Forall_forall in F. now apply F. }
  split.
  - rewrite (qsum_nth_seq (i_charges r)), L1, VC.
    rewrite (qsum_map_ext _ (fun b => / N * qsum (map (fun cl : Q * Z => if snd cl =? Z.of_nat b then fst cl else 0) (combine data labels)))%Q).
    2:{ intros b Hb. apply in_seq in Hb. rewrite (proj1 (B b ltac:(lia))). unfold Qdiv. ring. }
    rewrite qsum_map_scale.
    transitivity (qsum (map fst (combine data labels)) / N)%Q.
    + rewrite <- (sum_by_label fst snd n (combine data labels) Hlt). unfold Qdiv. ring.
    + rewrite map_fst_combine by exact HL. reflexivity.
  - rewrite (qsum_nth_seq (i_volumes r)), L2, VV.
    rewrite (qsum_map_ext _ (fun b => (vol / N) * qsum (map (fun cl : Q * Z => if snd cl =? Z.of_nat b then 1 else 0) (combine data labels)))%Q).
    2:{ intros b Hb. apply in_seq in Hb. rewrite (proj2 (B b ltac:(lia))). unfold Qdiv. ring. }
    rewrite qsum_map_scale.
    transitivity (qsum (map (fun _ : Q * Z => 1%Q) (combine data labels)) * vol / N)%Q.
    + rewrite <- (sum_by_label (fun _ => 1%Q) snd n (combine data labels) Hlt). unfold Qdiv. ring.
    + rewrite qsum_ones, combine_length, HL, Nat.min_id. fold N. field. exact HN.
Qed.

(** ** argmin *)
Lemma argmin_from_spec l : forall best bi i,
  (bi < i)%nat ->
  let r := argmin_from best bi i l in
  (r = bi /\ (forall k x, nth_error l k = Some x -> (best <= x)%Q)) \/
  (exists k x, r = (i + k)%nat /\ nth_error l k = Some x /\ (x < best)%Q /\
     (forall j y, nth_error l j = Some y -> (x <= y)%Q) /\
     (forall j y, (j < k)%nat -> nth_error l j = Some y -> (x < y)%Q)).
Proof.
  induction l as [|z t IH]; intros best bi i Hi; simpl.
  - left. split; [reflexivity|]. intros [|k] x H; discriminate.
  - destruct (Qltb_spec z best) as [L|L].
    + right. destruct (IH z i (S i) ltac:(lia)) as [(E & H)|(k & x & E & Hk & Hx & Hall & Hpre)].
      * exists 0%nat, z. rewrite Nat.add_0_r. repeat split; auto.
        -- intros [|j] y Hy; simpl in Hy; [injection Hy as <-; apply Qle_refl|eauto].
        -- intros j y Hj. lia.
      * exists (S k), x. repeat split; auto; try lia; try lra.
        -- intros [|j] y Hy; simpl in Hy; [injection Hy as <-; lra|eauto].
        -- intros [|j] y Hj Hy; simpl in Hy; [injection Hy as <-; exact Hx|]. eapply Hpre; eauto. lia.
    + destruct (IH best bi (S i) ltac:(lia)) as [(E & H)|(k & x & E & Hk & Hx & Hall & Hpre)].
      * left. split; [exact E|]. intros [|k] x Hx; simpl in Hx; [injection Hx as <-; exact L|eauto].
      * right. exists (S k), x. repeat split; auto; try lia.
        -- intros [|j] y Hy; simpl in Hy; [injection Hy as <-; lra|eauto].
        -- intros [|j] y Hj Hy; simpl in Hy; [injection Hy as <-; lra|]. eapply Hpre; eauto. lia.
Qed.

Lemma argmin_spec l r : argmin l = Some r ->
  exists x, nth_error l r = Some x /\ (forall j y, nth_error l j = Some y -> (x <= y)%Q) /\
            (forall j y, (j < r)%nat -> nth_error l j = Some y -> (x < y)%Q).
Proof.
  destruct l as [|z t]; [discriminate|]. simpl. intros [= <-].
  destruct (argmin_from_spec t z 0%nat 1%nat ltac:(lia)) as [(E & H)|(k & x & E & Hk & Hx & Hall & Hpre)].
  - rewrite E. exists z. repeat split; auto.
    + intros [|j] y Hy; simpl in Hy; [injection Hy as <-; apply Qle_refl|eauto].
    + intros j y Hj. lia.
  - rewrite E. exists x. repeat split; auto.
    + intros [|j] y Hy; simpl in Hy; [injection Hy as <-; lra|eauto].
    + intros [|j] y Hj Hy; simpl in Hy; [injection Hy as <-; exact Hx|]. eapply Hpre; eauto. lia.
Qed.

Lemma argmin_none l : argmin l = None <-> l = [].
Proof. destruct l; simpl; split; congruence. Qed.

(** ** bincount *)
Lemma bincount_inv n l : forall acc, length acc = n ->
  Forall (fun bw : nat * Q => (fst bw < n)%nat) l ->
  let r := fold_left (fun acc bw => add_at acc (fst bw) (snd bw)) l acc in
  length r = n /\
  (forall b, (b < n)%nat -> (nth b r 0 == nth b acc 0 +
      qsum (map (fun bw : nat * Q => if Nat.eqb (fst bw) b then snd bw else 0) l))%Q) /\
  (qsum r == qsum acc + qsum (map snd l))%Q.
Proof.
  induction l as [|[b0 w] t IH]; intros acc HL HF; simpl.
  - repeat split; auto; intros; ring.
  - inversion HF as [|? ? Hb HF']; subst. cbn [fst snd] in *.
    destruct (IH (add_at acc b0 w)) as (L & B & S); [now rewrite add_at_length|exact HF'|].
    split; [exact L|]. split.
    + intros b Hlt. rewrite (B b Hlt), nth_add_at by exact Hb.
      destruct (Nat.eqb_spec b0 b) as [->|]; ring.
    + rewrite S, qsum_add_at by exact Hb. ring.
Qed.

Lemma map_snd_combine {A} (a : list A) (w : list Q) : length a = length w -> map snd (combine a w) = w.
Proof.
  revert w. induction a as [|x t IH]; intros [|l ls] H; simpl in *; try discriminate; [reflexivity|].
  f_equal. apply IH. congruence.
Qed.

Lemma bincount_spec idx w n : length idx = length w -> Forall (fun i => (i < n)%nat) idx ->
  length (bincount idx w n) = n /\
  (forall b, (b < n)%nat -> (nth b (bincount idx w n) 0 ==
     qsum (map (fun bw : nat * Q => if Nat.eqb (fst bw) b then snd bw else 0) (combine idx w)))%Q) /\
  (qsum (bincount idx w n) == qsum w)%Q.
Proof.
  intros HL HF. unfold bincount.
  destruct (bincount_inv n (combine idx w) (repeat 0%Q n)) as (L & B & S).
  - apply repeat_length.
  - apply Forall_forall. intros [i x] Hi. apply in_combine_l in Hi. rewrite Forall_forall in HF. now apply HF.
  - split; [exact L|]. split.
    + intros b Hb. rewrite (B b Hb), nth_repeat0. ring.
    + rewrite S, qsum_repeat0, map_snd_combine by exact HL. ring.
Qed.

(** ** the assignment *)
Lemma assign_basins_list L atoms basins :
  atoms <> [] ->
  exists ba, fold_right (fun b acc => match basin_atom L atoms b, acc with
                                 | Some a, Some l => Some (a :: l)
                                 | _, _ => None end) (Some []) basins = Some ba /\
    length ba = length basins /\
    Forall2 (fun b a => basin_atom L atoms b = Some a /\ (a < length atoms)%nat) basins ba.
Proof.
  intros HA. induction basins as [|b t (ba & E & HL & F)]; simpl.
  - exists []. repeat split; auto.
  - rewrite E. destruct (basin_atom L atoms b) as [a|] eqn:Eb.
    + exists (a :: ba). simpl. repeat split; auto. constructor; auto. split; [exact Eb|].
      apply argmin_spec in Eb as (x & Hx & _).
      assert (a < length (map (basin_atom_dist2 L b) atoms))%nat by (apply nth_error_Some; congruence).
      now rewrite map_length in H.
    + exfalso. apply argmin_none in Eb. apply HA. now apply map_eq_nil in Eb.
Qed.

Theorem assign_basins_correct L atoms basins labels charges volumes :
  atoms <> [] -> length charges = length basins -> length volumes = length basins ->
  exists r, assign_basins L atoms basins labels charges volumes = Some r /\
    length (a_basin_atoms r) = length basins /\
    (forall b basin, nth_error basins b = Some basin -> exists a atom,
        nth_error (a_basin_atoms r) b = Some a /\ nth_error atoms a = Some atom /\
        (forall a' atom', nth_error atoms a' = Some atom' ->
           (basin_atom_dist2 L basin atom <= basin_atom_dist2 L basin atom')%Q /\
           ((a' < a)%nat -> (basin_atom_dist2 L basin atom < basin_atom_dist2 L basin atom')%Q))) /\
    length (a_charges r) = length atoms /\ length (a_volumes r) = length atoms /\
    (forall a, (a < length atoms)%nat ->
       (nth a (a_charges r) 0 == qsum (map (fun bw : nat * Q => if Nat.eqb (fst bw) a then snd bw else 0)
            (combine (a_basin_atoms r) charges)))%Q /\
       (nth a (a_volumes r) 0 == qsum (map (fun bw : nat * Q => if Nat.eqb (fst bw) a then snd bw else 0)
            (combine (a_basin_atoms r) volumes)))%Q) /\
    (qsum (a_charges r) == qsum charges)%Q /\ (qsum (a_volumes r) == qsum volumes)%Q /\
    (forall i l, nth_error labels i = Some l ->
       (l = -1 -> nth_error (a_labels r) i = Some (Some (-1))) /\
       (0 <= l < Z.of_nat (length basins) -> exists a, nth_error (a_basin_atoms r) (Z.to_nat l) = Some a /\
            nth_error (a_labels r) i = Some (Some (Z.of_nat a)))).
Proof.
  intros HA HC HV. destruct (assign_basins_list L atoms basins HA) as (ba & E & HL & F).
  unfold assign_basins. rewrite E. eexists. split; [reflexivity|]. cbn [a_labels a_charges a_volumes a_basin_atoms].
  assert (FA : Forall (fun a => (a < length atoms)%nat) ba).
  { clear -F. induction F as [|b a bs as_ [_ H] _ IH]; constructor; auto. }
  destruct (bincount_spec ba charges (length atoms)) as (C1 & C2 & C3); [congruence|exact FA|].
  destruct (bincount_spec ba volumes (length atoms)) as (V1 & V2 & V3); [congruence|exact FA|].
  split; [exact HL|]. split; [|split; [exact C1|split; [exact V1|split; [intros a Ha; split; [now apply C2|now apply V2]|split; [exact C3|split; [exact V3|]]]]]].
  - intros b basin Hb.
    assert (exists a, nth_error ba b = Some a /\ basin_atom L atoms basin = Some a) as (a & Ha & Eb).
    { clear -F Hb. revert b Hb. induction F as [|x y xs ys [Hxy _] _ IH]; intros [|b] Hb; simpl in *; try discriminate.
      - injection Hb as ->. eauto.
      - eauto. }
    apply argmin_spec in Eb as (x & Hx & Hall & Hfirst).
    rewrite nth_error_map in Hx. destruct (nth_error atoms a) as [atom|] eqn:Eat; [|discriminate].
    injection Hx as <-. exists a, atom. repeat split; auto.
    + apply (Hall a'). rewrite nth_error_map, H. reflexivity.
    + intros Hlt. apply (Hfirst a'); [exact Hlt|]. rewrite nth_error_map, H. reflexivity.
  - intros i l Hl. unfold atom_labels. rewrite nth_error_map, Hl. cbn [option_map]. unfold np_get.
    rewrite app_length, map_length. cbn [length]. split.
    + intros ->. unfold np_idx. replace ((0 <=? -1) && _)%bool with false by lia.
      replace ((- Z.of_nat (length ba + 1) <=? -1) && (-1 <? 0))%bool with true by lia.
      replace (Z.to_nat (-1 + Z.of_nat (length ba + 1))) with (length ba) by lia.
      rewrite nth_error_app2 by (rewrite map_length; lia). rewrite map_length, Nat.sub_diag. reflexivity.
    + intros Hr. rewrite np_idx_pos by lia.
      destruct (nth_error ba (Z.to_nat l)) as [a|] eqn:Ea.
      * exists a. split; [reflexivity|]. rewrite nth_error_app1 by (rewrite map_length; lia).
        rewrite nth_error_map, Ea. reflexivity.
      * apply nth_error_None in Ea. lia.
Qed.

(** ** minimum image *)
Lemma wrap_diff_range d : (-1 < d < 1)%Q -> (-(1#2) <= wrap_diff d < 1#2)%Q.
Proof.
  intros [H1 H2]. unfold wrap_diff.
  destruct (Qle_bool d (-1 # 2)) eqn:E1.
  - apply Qle_bool_iff in E1. destruct (Qle_bool (1 # 2) (d + 1)) eqn:E2.
    + apply Qle_bool_iff in E2. lra.
    + apply Qle_bool_false in E2. lra.
  - apply Qle_bool_false in E1. destruct (Qle_bool (1 # 2) d) eqn:E2.
    + apply Qle_bool_iff in E2. lra.
    + apply Qle_bool_false in E2. lra.
Qed.

Lemma wrap_diff_int d : exists k : Z, (wrap_diff d == d + inject_Z k)%Q.
Proof.
  unfold wrap_diff. destruct (Qle_bool d (-1 # 2)), (Qle_bool (1 # 2) _).
  - exists 0. simpl. change (inject_Z 0) with 0%Q. ring.
  - exists 1. change (inject_Z 1) with 1%Q. ring.
  - exists (-1). change (inject_Z (-1)) with (-(1))%Q. ring.
  - exists 0. change (inject_Z 0) with 0%Q. ring.
Qed.

(** A fractional part in [-1/2, 1/2) has the smallest square among its
    translates. *)
Lemma half_min (d : Q) (k : Z) : (-(1#2) <= d <= 1#2)%Q -> (d * d <= (d + inject_Z k) * (d + inject_Z k))%Q.
Proof.
  intros [H1 H2]. destruct (Z.eq_dec k 0) as [->|Hk].
  - change (inject_Z 0) with 0%Q. nra.
  - destruct (Z_lt_le_dec k 0) as [L|L].
    + assert (inject_Z k <= -(1))%Q by (change (-(1))%Q with (inject_Z (-1)); rewrite <- Zle_Qle; lia). nra.
    + assert (1 <= inject_Z k)%Q by (change 1%Q with (inject_Z 1); rewrite <- Zle_Qle; lia). nra.
Qed.

Definition diag (a b c : Q) : mat := ((a, 0%Q, 0%Q), (0%Q, b, 0%Q), (0%Q, 0%Q, c)).

(** Squared distance between [basin] and the image of [atom] shifted by integers. *)
Definition image_dist2 (L : mat) (basin atom : vec) (k1 k2 k3 : Z) : Q :=
  let '(x, y, z) := vsub atom basin in
  norm2 (vmat ((x + inject_Z k1)%Q, (y + inject_Z k2)%Q, (z + inject_Z k3)%Q) L).

Definition unit_cell (v : vec) : Prop :=
  let '(x, y, z) := v in (0 <= x < 1 /\ 0 <= y < 1 /\ 0 <= z < 1)%Q.

Theorem orthogonal_min_image a b c basin atom k1 k2 k3 :
  unit_cell basin -> unit_cell atom ->
  (basin_atom_dist2 (diag a b c) basin atom <= image_dist2 (diag a b c) basin atom k1 k2 k3)%Q.
Proof.
  destruct basin as [[x1 y1] z1], atom as [[x2 y2] z2].
  intros ((A1 & A2) & (A3 & A4) & (A5 & A6)) ((B1 & B2) & (B3 & B4) & (B5 & B6)).
  unfold basin_atom_dist2, image_dist2, diag. cbn [vsub vmap vmat norm2].
  set (dx := (x2 - x1)%Q). set (dy := (y2 - y1)%Q). set (dz := (z2 - z1)%Q).
  assert (Rx := wrap_diff_range dx ltac:(unfold dx; lra)).
  assert (Ry := wrap_diff_range dy ltac:(unfold dy; lra)).
  assert (Rz := wrap_diff_range dz ltac:(unfold dz; lra)).
  destruct (wrap_diff_int dx) as (kx & Ex), (wrap_diff_int dy) as (ky & Ey), (wrap_diff_int dz) as (kz & Ez).
  assert (Mx := half_min (wrap_diff dx) (k1 - kx) ltac:(lra)).
  assert (My := half_min (wrap_diff dy) (k2 - ky) ltac:(lra)).
  assert (Mz := half_min (wrap_diff dz) (k3 - kz) ltac:(lra)).
  assert (Sx : (wrap_diff dx + inject_Z (k1 - kx) == dx + inject_Z k1)%Q).
  { rewrite Ex. unfold Zminus. rewrite inject_Z_plus, inject_Z_opp. ring. }
  assert (Sy : (wrap_diff dy + inject_Z (k2 - ky) == dy + inject_Z k2)%Q).
  { rewrite Ey. unfold Zminus. rewrite inject_Z_plus, inject_Z_opp. ring. }
  assert (Sz : (wrap_diff dz + inject_Z (k3 - kz) == dz + inject_Z k3)%Q).
  { rewrite Ez. unfold Zminus. rewrite inject_Z_plus, inject_Z_opp. ring. }
  rewrite Sx in Mx. rewrite Sy in My. rewrite Sz in Mz.
  set (ux := wrap_diff dx) in *. set (uy := wrap_diff dy) in *. set (uz := wrap_diff dz) in *.
  set (vx := (dx + inject_Z k1)%Q) in *. set (vy := (dy + inject_Z k2)%Q) in *. set (vz := (dz + inject_Z k3)%Q) in *.
  clearbody ux uy uz vx vy vz.
  assert (0 <= a * a)%Q by nra. assert (0 <= b * b)%Q by nra. assert (0 <= c * c)%Q by nra.
  assert (P1 : ((a * a) * (ux * ux) <= (a * a) * (vx * vx))%Q) by nra.
  assert (P2 : ((b * b) * (uy * uy) <= (b * b) * (vy * vy))%Q) by nra.
  assert (P3 : ((c * c) * (uz * uz) <= (c * c) * (vz * vz))%Q) by nra.
  lra.
Qed.
