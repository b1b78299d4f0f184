(** Proofs about the weight method. *)
From Verif Require Import Base GridModel NeighModel RootsModel UnionModel LabelsModel ChargeModel ChargeProofs WeightModel WeightSpec.
From Coq Require Import ZifyBool ZifyNat.

Lemma fold_inv {A B} (f : A -> B -> A) (P : list B -> A -> Prop) l a :
  P [] a -> (forall pre x post s, l = pre ++ x :: post -> P pre s -> P (pre ++ [x]) (f s x)) ->
  P l (fold_left f l a).
Proof.
  intros H0 HS.
  assert (G : forall post pre s, l = pre ++ post -> P pre s -> P l (fold_left f post s)).
  { induction post as [|x t IH]; intros pre s E HP; cbn.
    - rewrite app_nil_r in E. now subst.
    - apply (IH (pre ++ [x])); [now rewrite <- app_assoc|]. eapply HS; eauto. }
  apply (G l []); auto.
Qed.

Lemma sorted_before {ref : nat -> Q} l1 v l2 n :
  StronglySorted (fun a b => ref b <= ref a)%Q (l1 ++ v :: l2) -> In n (l1 ++ v :: l2) ->
  (ref v < ref n)%Q -> In n l1.
Proof.
  induction l1 as [|x t IH]; cbn; intros S H L.
  - apply StronglySorted_inv in S as [_ F]. rewrite Forall_forall in F. destruct H as [->|H]; [lra|].
    apply F in H. lra.
  - apply StronglySorted_inv in S as [S _]. destruct H as [->|H]; [now left|right; auto].
Qed.

Lemma sorted_snoc {ref : nat -> Q} l v :
  StronglySorted (fun a b => ref b <= ref a)%Q l -> (forall x, In x l -> ref v <= ref x)%Q ->
  StronglySorted (fun a b => ref b <= ref a)%Q (l ++ [v]).
Proof.
  induction l as [|x t IH]; cbn; intros S H; [repeat constructor|].
  apply StronglySorted_inv in S as [S F]. constructor; [apply IH; auto|].
  apply Forall_app. split; [exact F|]. constructor; [apply H; now left|constructor].
Qed.

Lemma sorted_le {ref : nat -> Q} l1 v l2 n :
  StronglySorted (fun a b => ref b <= ref a)%Q (l1 ++ v :: l2) -> In n l1 -> (ref v <= ref n)%Q.
Proof.
  induction l1 as [|x t IH]; cbn; intros S H; [contradiction|].
  apply StronglySorted_inv in S as [S F]. rewrite Forall_forall in F.
  destruct H as [->|H]; [apply F, in_or_app; right; now left|auto].
Qed.

Lemma NoDup_snoc {A} (l : list A) x : NoDup l -> ~ In x l -> NoDup (l ++ [x]).
Proof.
  intros H1 H2. apply (Permutation_NoDup (l := x :: l)); [|now constructor].
  apply Permutation_cons_append.
Qed.

Lemma qsum_snoc l x : (qsum (l ++ [x]) == qsum l + x)%Q.
Proof. rewrite qsum_app. cbn. ring. Qed.

Lemma add_at_length c b x : length (add_at c b x) = length c.
Proof. apply upd_length. Qed.

Lemma nth_add_at c b x j : (b < length c)%nat ->
  (nth j (add_at c b x) 0 == nth j c 0 + if Nat.eqb b j then x else 0)%Q.
Proof.
  intros H. unfold add_at. rewrite nth_upd. destruct (Nat.eqb_spec b j) as [->|].
  - replace (Nat.ltb j (length c)) with true by lia. cbn. reflexivity.
  - cbn. ring.
Qed.

(** Weight of a label in a list of (label, weight). *)
Definition wof (l : list (nat * Q)) (b : nat) : Q :=
  qsum (map (fun lw : nat * Q => if Nat.eqb (fst lw) b then snd lw else 0%Q) l).

Lemma wof_cons l w t b : (wof ((l, w) :: t) b == (if Nat.eqb l b then w else 0) + wof t b)%Q.
Proof. reflexivity. Qed.
Lemma wof_app l1 l2 b : (wof (l1 ++ l2) b == wof l1 b + wof l2 b)%Q.
Proof. unfold wof. rewrite map_app. apply qsum_app. Qed.
Lemma wof_nonneg l b : (forall x w, In (x, w) l -> (0 <= w)%Q) -> (0 <= wof l b)%Q.
Proof.
  intros H. apply qsum_nonneg. intros q Hq. apply in_map_iff in Hq as ([x w] & <- & Hx). cbn [fst snd].
  destruct (Nat.eqb x b); [now apply (H x)|lra].
Qed.
Lemma wof_out l b : (forall w, ~ In (b, w) l) -> (wof l b == 0)%Q.
Proof.
  intros H. unfold wof. rewrite <- (qsum_map_zero l). apply qsum_map_ext. intros [x w] Hx. cbn [fst snd].
  destruct (Nat.eqb_spec x b) as [->|]; [|reflexivity]. now apply H in Hx.
Qed.
Lemma wof_in l b w : NoDup (map fst l) -> In (b, w) l -> (wof l b == w)%Q.
Proof.
  induction l as [|[x u] t IH]; cbn [map fst]; intros ND H; [contradiction|]. apply NoDup_cons_iff in ND as [NI ND].
  rewrite wof_cons. destruct H as [[= -> ->]|H].
  - rewrite Nat.eqb_refl, wof_out; [ring|]. intros w' Hw. apply NI, in_map_iff. now exists (b, w').
  - destruct (Nat.eqb_spec x b) as [->|]; [exfalso; apply NI, in_map_iff; now exists (b, w)|]. rewrite IH; auto. ring.
Qed.
Lemma wof_total l K : (forall x w, In (x, w) l -> (x < K)%nat) ->
  (qsum (map (wof l) (seq 0 K)) == qsum (map snd l))%Q.
Proof.
  induction l as [|[x u] t IH]; intros H.
  - cbn. rewrite <- (qsum_map_zero (seq 0 K)). apply qsum_map_ext. reflexivity.
  - rewrite (qsum_map_ext _ (fun b => (if Nat.eqb x b then u else 0) + wof t b)%Q) by (intros; apply wof_cons).
    rewrite qsum_map_plus, IH by (intros; eapply H; right; eauto).
    rewrite (qsum_indicator K x u) by (eapply H; left; reflexivity). reflexivity.
Qed.
Lemma wof_pos_in l b : (0 < wof l b)%Q -> exists w, In (b, w) l.
Proof.
  intros H. destruct (in_dec Nat.eq_dec b (map fst l)) as [I|I].
  - apply in_map_iff in I as ([x w] & <- & I). now exists w.
  - rewrite wof_out in H; [lra|]. intros w Hw. apply I, in_map_iff. now exists (b, w).
Qed.

Lemma NoDup_map_fst_filter {A B} (p : A * B -> bool) (l : list (A * B)) : NoDup (map fst l) -> NoDup (map fst (filter p l)).
Proof.
  induction l as [|x t IH]; cbn; intros H; [constructor|]. apply NoDup_cons_iff in H as [N H].
  destruct (p x); cbn; [|auto]. constructor; [|auto]. intros K. apply N.
  apply in_map_iff in K as (y & E & K). apply filter_In in K as [K _]. apply in_map_iff. eauto.
Qed.

Lemma Qmult_inj_r_ext a b c : (a == b -> a / c == b / c)%Q.
Proof. intros H. now rewrite H. Qed.

Section Core.
Variables ref chg : nat -> Q.
Variable mask : nat -> bool.
Variable vor : nat -> list (nat * Q).
Variable best : nat -> nat.
Variables order maxidx : list nat.
Variable lab0 : list Z.
Notation N := (length lab0).
Notation K := (length maxidx).
Notation higher := (higher ref vor).
Notation neighs := (neighs ref mask vor best).
Notation bestr := (fun v n => n = best v).
Notation uphill := (uphill ref vor bestr).
Notation top := (fun v => mask v = true).

Hypothesis Hnd : NoDup order.
Hypothesis Hlt : forall v, In v order -> (v < N)%nat.
Hypothesis Hsort : StronglySorted (fun a b => ref b <= ref a)%Q order.
Hypothesis Hup : forall v n, In v order -> mask v = false -> uphill v n -> In n order /\ (ref v < ref n)%Q.
Hypothesis Halpha : forall v n a, In (n, a) (vor v) -> (0 < a)%Q.
Hypothesis Hmax : forall v, In v order -> mask v = true -> exists r, nth_error lab0 v = Some (Z.of_nat r) /\
  In r order /\ mask r = true /\ nth_error lab0 r = Some (Z.of_nat r) /\ In r maxidx.
Hypothesis Hother : forall v, (v < N)%nat -> (mask v = false \/ ~ In v order) -> nth_error lab0 v = Some (-1).

Definition root (v : nat) : nat := Z.to_nat (lab_at lab0 v).
Definition basin (v : nat) : nat := searchsorted maxidx (root v).

Lemma searchsorted_lt l x : In x l -> (searchsorted l x < length l)%nat.
Proof.
  unfold searchsorted. induction l as [|y t IH]; [contradiction|]. intros [->|H]; cbn [filter length].
  - rewrite Nat.ltb_irrefl. assert (A : forall l, (length (filter (fun y => Nat.ltb y x) l) <= length l)%nat).
    { induction l as [|a s IHl]; cbn [filter length]; [lia|]. destruct (Nat.ltb a x); cbn [length]; lia. }
    specialize (A t). lia.
  - apply IH in H. destruct (Nat.ltb y x); cbn [length]; lia.
Qed.

Lemma lab_at_nth_error (l : list Z) v z : nth_error l v = Some z -> lab_at l v = z.
Proof. intros H. unfold lab_at. now apply nth_error_nth. Qed.

Lemma root_spec v : In v order -> mask v = true ->
  lab_at lab0 v = Z.of_nat (root v) /\ In (root v) order /\ mask (root v) = true /\ root (root v) = root v /\ (basin v < K)%nat.
Proof.
  intros Hv M. destruct (Hmax v Hv M) as (r & E & Hr & Mr & Er & Hm).
  apply lab_at_nth_error in E, Er. unfold basin, root. rewrite !E, !Nat2Z.id, !Er, !Nat2Z.id.
  repeat split; auto. now apply searchsorted_lt.
Qed.

Lemma basin_root v : In v order -> mask v = true -> basin (root v) = basin v.
Proof. intros Hv M. unfold basin. destruct (root_spec v Hv M) as (_ & _ & _ & -> & _). reflexivity. Qed.

Lemma lab0_other v : mask v = false \/ ~ In v order -> lab_at lab0 v = -1.
Proof.
  intros H. destruct (Nat.lt_ge_cases v N) as [L|L].
  - apply lab_at_nth_error. now apply Hother.
  - unfold lab_at. now apply nth_overflow.
Qed.

Lemma higher_in v n a : In (n, a) (higher v) <-> In (n, a) (vor v) /\ (ref v < ref n)%Q.
Proof.
  unfold WeightModel.higher. rewrite filter_In. cbn [fst]. rewrite negb_true_iff, Qle_bool_false. tauto.
Qed.

Lemma neighs_uphill v n : mask v = false -> (In n (neighs v) <-> uphill v n).
Proof.
  intros M. unfold WeightModel.neighs. rewrite M. unfold WeightSpec.uphill.
  destruct (map fst (higher v)) as [|x t] eqn:E.
  - assert (NH : forall m a, In (m, a) (vor v) -> (ref m <= ref v)%Q).
    { intros m a H. destruct (Qlt_le_dec (ref v) (ref m)) as [L|L]; [|exact L].
      assert (In (m, a) (higher v)) by (now apply higher_in). apply (in_map fst) in H0. rewrite E in H0. contradiction. }
    cbn. split.
    + intros [<-|[]]. right. split; [exact NH|reflexivity].
    + intros [(a & H & L)|[_ ->]]; [|now left]. apply NH in H. lra.
  - assert (NE : exists m a, In (m, a) (vor v) /\ (ref v < ref m)%Q).
    { destruct (higher v) as [|[m a] s] eqn:EH; [discriminate|]. exists m, a. apply higher_in. rewrite EH. now left. }
    rewrite <- E. clear x t E. split.
    + intros H. apply in_map_iff in H as ([m a] & <- & H). apply higher_in in H as [H L]. left. exists a. auto.
    + intros [(a & H & L)|[NH _]].
      * apply in_map_iff. exists (n, a). split; [reflexivity|now apply higher_in].
      * destruct NE as (m & a & H & L). apply NH in H. lra.
Qed.

Lemma neighs_nil v : neighs v = [] <-> mask v = true.
Proof.
  unfold WeightModel.neighs. destruct (mask v); [tauto|]. destruct (map fst (higher v)); split; discriminate.
Qed.

(** ** Interior phase *)

Lemma interior_scan_spec lab ns : forall b0 last b l, interior_scan lab b0 last ns = (b, l) -> b <> -1 ->
  (forall n, In n ns -> lab_at lab n = b) /\ (b0 = -1 \/ b0 = b) /\ (ns <> [] -> l = b).
Proof.
  induction ns as [|n t IH]; cbn [interior_scan]; intros b0 last b l H NB.
  - injection H as <- <-. split; [intros ? []|]. split; [now right|congruence].
  - destruct (lab_at lab n =? -1) eqn:E1; [injection H as <- <-; contradiction|].
    destruct (negb (lab_at lab n =? b0) && negb (b0 =? -1)) eqn:E2; [injection H as <- <-; contradiction|].
    destruct (IH _ _ _ _ H NB) as (A & B & C).
    assert (LB : lab_at lab n = b) by lia.
    split; [intros m [<-|Hm]; auto|]. split; [lia|]. intros _.
    destruct t as [|m t']; [cbn in H; injection H as H1 H2; congruence|apply C; discriminate].
Qed.

(** Voxels already counted, with their sums. *)
Record counted (lab : list Z) (c vol : list Q) (cnt : list nat) : Prop := {
  k_len : length lab = N /\ length c = K /\ length vol = K;
  k_nd : NoDup cnt;
  k_ord : forall v, In v cnt -> In v order;
  k_lab : forall v, In v cnt -> exists b, lab_at lab v = Z.of_nat b /\ (b < K)%nat /\ (mask v = true -> b = basin v);
  k_old : forall v, ~ In v cnt -> lab_at lab v = lab_at lab0 v;
  k_chg : forall b, (b < K)%nat -> (nth b c 0 == qsum (map (fun v => if (lab_at lab v =? Z.of_nat b)%Z then chg v else 0) cnt))%Q;
  k_vol : forall b, (b < K)%nat -> (nth b vol 0 == qsum (map (fun v => if (lab_at lab v =? Z.of_nat b)%Z then 1 else 0) cnt))%Q
}.

Lemma lab_at_upd lab v z u : (v < length lab)%nat -> lab_at (upd lab v z) u = if Nat.eqb v u then z else lab_at lab u.
Proof.
  intros H. unfold lab_at. rewrite nth_upd. replace (Nat.ltb v (length lab)) with true by lia. now rewrite andb_true_r.
Qed.

Lemma count_step lab c vol cnt u b : counted lab c vol cnt -> In u order -> ~ In u cnt -> (b < K)%nat ->
  (mask u = true -> b = basin u) ->
  counted (upd lab u (Z.of_nat b)) (add_at c b (chg u)) (add_at vol b 1) (cnt ++ [u]).
Proof.
  intros [(L1 & L2 & L3) ND OR LB OLD C V] Hu NI Hb HM.
  assert (HL : (u < length lab)%nat) by (rewrite L1; now apply Hlt).
  constructor.
  - now rewrite upd_length, !add_at_length.
  - now apply NoDup_snoc.
  - intros v Hv. apply in_app_or in Hv as [Hv|[<-|[]]]; auto.
  - intros v Hv. rewrite lab_at_upd by exact HL. destruct (Nat.eqb_spec u v) as [->|NE].
    + exists b. auto.
    + apply in_app_or in Hv as [Hv|[<-|[]]]; [auto|congruence].
  - intros v Hv. rewrite lab_at_upd by exact HL. destruct (Nat.eqb_spec u v) as [->|NE].
    + exfalso. apply Hv, in_or_app. right. now left.
    + apply OLD. intros K0. apply Hv, in_or_app. now left.
  - intros b' Hb'. rewrite nth_add_at by lia. rewrite map_app, qsum_app. cbn [map qsum fold_right].
    rewrite lab_at_upd, Nat.eqb_refl by exact HL. rewrite (C b' Hb').
    rewrite (qsum_map_ext (fun v => if (lab_at (upd lab u (Z.of_nat b)) v =? Z.of_nat b')%Z then chg v else 0)%Q
              (fun v => if (lab_at lab v =? Z.of_nat b')%Z then chg v else 0)%Q).
    + destruct (Nat.eqb_spec b b') as [->|NE]; [rewrite Z.eqb_refl; ring|].
      replace (Z.of_nat b =? Z.of_nat b') with false by lia. ring.
    + intros v Hv. rewrite lab_at_upd by exact HL. destruct (Nat.eqb_spec u v) as [->|]; [contradiction|reflexivity].
  - intros b' Hb'. rewrite nth_add_at by lia. rewrite map_app, qsum_app. cbn [map qsum fold_right].
    rewrite lab_at_upd, Nat.eqb_refl by exact HL. rewrite (V b' Hb').
    rewrite (qsum_map_ext (fun v => if (lab_at (upd lab u (Z.of_nat b)) v =? Z.of_nat b')%Z then 1 else 0)%Q
              (fun v => if (lab_at lab v =? Z.of_nat b')%Z then 1 else 0)%Q).
    + destruct (Nat.eqb_spec b b') as [->|NE]; [rewrite Z.eqb_refl; ring|].
      replace (Z.of_nat b =? Z.of_nat b') with false by lia. ring.
    + intros v Hv. rewrite lab_at_upd by exact HL. destruct (Nat.eqb_spec u v) as [->|]; [contradiction|reflexivity].
Qed.

(** Invariant of the interior loop after the voxels [done]. *)
Record interior_inv (done : list nat) (st : wst) (cnt : list nat) : Prop := {
  i_cnt : counted (w_lab st) (w_chg st) (w_vol st) cnt;
  i_iff : forall v, In v cnt <-> (In v done /\ ~ In v (w_edges st)) \/ In (Z.of_nat v) (w_added st);
  i_add : forall z, In z (w_added st) -> exists r, z = Z.of_nat r /\ In r order /\ mask r = true /\ root r = r;
  i_root : forall v, In v done -> mask v = true -> In (Z.of_nat (root v)) (w_added st);
  i_edge : forall v, In v (w_edges st) -> In v done /\ mask v = false;
  i_esort : StronglySorted (fun a b => ref b <= ref a)%Q (w_edges st) /\ NoDup (w_edges st);
  i_int : forall v, In v done -> ~ In v (w_edges st) -> mask v = false ->
     forall n, uphill v n -> lab_at (w_lab st) n = lab_at (w_lab st) v /\ In n cnt
}.

Lemma existsb_in z l : existsb (Z.eqb z) l = true <-> In z l.
Proof.
  rewrite existsb_exists. split; [intros (x & H & E); apply Z.eqb_eq in E; now subst|].
  intros H. exists z. split; [exact H|apply Z.eqb_refl].
Qed.
Lemma existsb_nin z l : existsb (Z.eqb z) l = false <-> ~ In z l.
Proof. rewrite <- existsb_in. destruct (existsb (Z.eqb z) l); split; congruence. Qed.

Lemma interior_step_inv pre v post st cnt : order = pre ++ v :: post -> interior_inv pre st cnt ->
  exists cnt', interior_inv (pre ++ [v]) (interior_step ref chg mask vor best maxidx st v) cnt'.
Proof.
  intros EO [IC II IA IR IE [IES IEN] INT].
  assert (Hv : In v order) by (rewrite EO; apply in_or_app; right; now left).
  assert (NV : ~ In v pre).
  { rewrite EO in Hnd. apply NoDup_remove_2 in Hnd. intros H. apply Hnd, in_or_app. now left. }
  assert (NVE : ~ In v (w_edges st)) by (intros H; now apply IE in H).
  pose proof (k_len _ _ _ _ IC) as (L1 & L2 & L3).
  destruct st as [lab c vol es ad sl]. cbn [w_lab w_chg w_vol w_edges w_added w_stale] in *.
  unfold interior_step. destruct (neighs v) as [|n0 ns] eqn:EN.
  - (* a maximum *)
    apply neighs_nil in EN. destruct (root_spec v Hv EN) as (R1 & R2 & R3 & R4 & R5).
    destruct (existsb (Z.eqb (Z.of_nat v)) ad) eqn:E1.
    + apply existsb_in in E1. exists cnt. constructor; cbn [w_lab w_chg w_vol w_edges w_added]; auto.
      * intros u. rewrite II, in_app_iff. cbn. split; [tauto|]. intros [[[H|[<-|[]]] H2]|H]; auto.
      * intros u Hu Mu. apply in_app_or in Hu as [Hu|[<-|[]]]; auto.
        destruct (IA _ E1) as (r & Er & _ & _ & Rr). assert (v = r) by lia. subst r. now rewrite Rr.
      * intros u Hu. split; [apply in_or_app; left|]; now apply IE.
      * intros u Hu NU Mu. apply in_app_or in Hu as [Hu|[<-|[]]]; [auto|congruence].
    + apply existsb_nin in E1.
      assert (NC : ~ In v cnt) by (rewrite II; tauto).
      rewrite (k_old _ _ _ _ IC v NC), R1, Nat2Z.id.
      destruct (existsb (Z.eqb (Z.of_nat (root v))) ad) eqn:E2.
      * apply existsb_in in E2. assert (NR : root v <> v) by congruence.
        replace (Z.of_nat v =? Z.of_nat (root v)) with false by lia.
        assert (RC : In (root v) cnt) by (rewrite II; now right).
        destruct (k_lab _ _ _ _ IC _ RC) as (b & Eb & Hb & Mb). specialize (Mb R3). rewrite basin_root in Mb by auto. subst b.
        rewrite Eb, Nat2Z.id. exists (cnt ++ [v]). constructor; cbn [w_lab w_chg w_vol w_edges w_added].
        -- apply count_step; auto.
        -- intros u. rewrite !in_app_iff. rewrite II. cbn. split.
           ++ intros [[[H1 H2]|H]|[<-|[]]]; auto.
           ++ intros [[[H|[<-|[]]] H2]|H]; auto.
        -- exact IA.
        -- intros u Hu Mu. apply in_app_or in Hu as [Hu|[<-|[]]]; auto.
        -- intros u Hu. split; [apply in_or_app; left|]; now apply IE.
        -- split; auto.
        -- intros u Hu NU Mu n Un. apply in_app_or in Hu as [Hu|[<-|[]]]; [|congruence].
           destruct (INT u Hu NU Mu n Un) as [A B]. rewrite !lab_at_upd by (rewrite L1; now apply Hlt).
           assert (v <> n) by congruence. assert (v <> u) by congruence.
           rewrite (proj2 (Nat.eqb_neq v n)), (proj2 (Nat.eqb_neq v u)) by assumption. split; [exact A|apply in_or_app; now left].
      * apply existsb_nin in E2.
        assert (NRC : ~ In (root v) cnt).
        { rewrite II. intros [[H _]|H]; [|contradiction]. apply E2. rewrite <- R4. now apply IR. }
        assert (CR : counted (upd lab (root v) (Z.of_nat (searchsorted maxidx (root v))))
                       (add_at c (searchsorted maxidx (root v)) (chg (root v)))
                       (add_at vol (searchsorted maxidx (root v)) 1) (cnt ++ [root v])).
        { apply count_step; auto. intros _. unfold basin. now rewrite R4. }
        assert (IR' : forall u, In u (pre ++ [v]) -> mask u = true -> In (Z.of_nat (root u)) (ad ++ [Z.of_nat (root v)])).
        { intros u Hu Mu. apply in_or_app. apply in_app_or in Hu as [Hu|[<-|[]]]; [left; auto|right; now left]. }
        assert (IA' : forall z, In z (ad ++ [Z.of_nat (root v)]) -> exists r, z = Z.of_nat r /\ In r order /\ mask r = true /\ root r = r).
        { intros z Hz. apply in_app_or in Hz as [Hz|[<-|[]]]; [auto|]. exists (root v). auto. }
        assert (IE' : forall u, In u es -> In u (pre ++ [v]) /\ mask u = false).
        { intros u Hu. split; [apply in_or_app; left|]; now apply IE. }
        assert (NRE : ~ In (root v) es) by (intros H; apply IE in H; destruct H; congruence).
        assert (INT1 : forall u, In u pre -> ~ In u es -> mask u = false -> forall n, uphill u n ->
           lab_at (upd lab (root v) (Z.of_nat (searchsorted maxidx (root v)))) n =
           lab_at (upd lab (root v) (Z.of_nat (searchsorted maxidx (root v)))) u /\ In n (cnt ++ [root v])).
        { intros u Hu NU Mu n Un. destruct (INT u Hu NU Mu n Un) as [A B]. rewrite !lab_at_upd by (rewrite L1; now apply Hlt).
          assert (root v <> n) by congruence. assert (root v <> u) by congruence.
          rewrite (proj2 (Nat.eqb_neq _ n)), (proj2 (Nat.eqb_neq _ u)) by assumption. split; [exact A|apply in_or_app; now left]. }
        destruct (Z.eqb_spec (Z.of_nat v) (Z.of_nat (root v))) as [EQ|NE].
        -- assert (RV : root v = v) by lia. exists (cnt ++ [root v]). constructor; cbn [w_lab w_chg w_vol w_edges w_added]; auto.
           ++ intros u. rewrite !in_app_iff. rewrite II. cbn. rewrite RV. split.
              ** intros [[[H1 H2]|H]|[<-|[]]]; auto.
              ** intros [[[H|[<-|[]]] H2]|[H|[H|[]]]]; auto. right. left. lia.
           ++ intros u Hu NU Mu n Un. apply in_app_or in Hu as [Hu|[<-|[]]]; [eauto|congruence].
        -- assert (NV2 : ~ In v (cnt ++ [root v])).
           { rewrite in_app_iff. cbn. intros [H|[H|[]]]; [contradiction|]. apply NE. lia. }
           rewrite Nat2Z.id. exists ((cnt ++ [root v]) ++ [v]). constructor; cbn [w_lab w_chg w_vol w_edges w_added].
           ++ apply (count_step _ _ _ _ v (basin v)) in CR; auto.
           ++ intros u. rewrite !in_app_iff, II. cbn. split.
              ** intros [[[[H1 H2]|H]|[<-|[]]]|[<-|[]]]; auto.
              ** intros [[[H|[<-|[]]] H2]|[H|[H|[]]]]; auto. left. right. left. lia.
           ++ exact IA'.
           ++ exact IR'.
           ++ exact IE'.
           ++ split; auto.
           ++ intros u Hu NU Mu n Un. apply in_app_or in Hu as [Hu|[<-|[]]]; [|congruence].
              destruct (INT1 u Hu NU Mu n Un) as [A B].
              assert (v <> n) by (intros ->; contradiction). assert (v <> u) by congruence.
              rewrite !(lab_at_upd (upd _ _ _)) by (rewrite upd_length, L1; now apply Hlt).
              rewrite (proj2 (Nat.eqb_neq v n)), (proj2 (Nat.eqb_neq v u)) by assumption. split; [exact A|apply in_or_app; now left].
  - (* not a maximum *)
    assert (M : mask v = false) by (destruct (mask v) eqn:M; [apply neighs_nil in M; congruence|reflexivity]).
    assert (NC : ~ In v cnt).
    { rewrite II. intros [[H _]|H]; [contradiction|]. apply IA in H as (r & Er & _ & Mr & _). assert (r = v) by lia. congruence. }
    assert (UN : forall n, In n (n0 :: ns) <-> uphill v n) by (intros n; rewrite <- EN; now apply neighs_uphill).
    assert (UP : forall n, uphill v n -> In n pre).
    { intros n Un. destruct (Hup v n Hv M Un) as [O L]. rewrite EO in Hsort, O. eapply sorted_before; eauto. }
    destruct (interior_scan lab (-1) sl (n0 :: ns)) as [b l] eqn:ES.
    destruct (Z.eqb_spec b (-1)) as [->|NB]; cbn [negb].
    + exists cnt. constructor; cbn [w_lab w_chg w_vol w_edges w_added]; auto.
      * intros u. rewrite II, !in_app_iff. cbn. split.
        -- intros [[H1 H2]|H]; [|now right]. left. split; [now left|]. intros [H|[<-|[]]]; [contradiction|]. contradiction.
        -- intros [[[H|[<-|[]]] H2]|H]; [|exfalso; apply H2; right; now left|now right]. left. split; [exact H|]. intros K0. apply H2. now left.
      * intros u Hu Mu. apply in_app_or in Hu as [Hu|[<-|[]]]; [auto|congruence].
      * intros u Hu. apply in_app_or in Hu as [Hu|[<-|[]]]; [split; [apply in_or_app; left|]; now apply IE|].
        split; [apply in_or_app; right; now left|exact M].
      * split; [|now apply NoDup_snoc]. apply sorted_snoc; [exact IES|]. intros x Hx. apply IE in Hx as [Hx _].
        rewrite EO in Hsort. eapply sorted_le; eauto.
      * intros u Hu NU Mu. apply in_app_or in Hu as [Hu|[<-|[]]].
        -- intros n Un. apply INT; auto. intros H. apply NU, in_or_app. now left.
        -- exfalso. apply NU, in_or_app. right. now left.
    + destruct (interior_scan_spec _ _ _ _ _ _ ES NB) as (A & _ & EL). specialize (EL ltac:(discriminate)). subst l.
      assert (CN : forall n, uphill v n -> In n cnt /\ lab_at lab n = b).
      { intros n Un. assert (EB : lab_at lab n = b) by (now apply A, UN). split; [|exact EB].
        rewrite II. left. split; [now apply UP|]. intros HE. destruct (IE _ HE) as [_ Mn].
        assert (NCn : ~ In n cnt).
        { rewrite II. intros [[_ H]|H]; [contradiction|]. apply IA in H as (r & Er & _ & Mr & _). assert (r = n) by lia. congruence. }
        rewrite (k_old _ _ _ _ IC _ NCn), lab0_other in EB by now left. lia. }
      assert (U0 : uphill v n0) by (apply UN; now left).
      destruct (CN n0 U0) as [C0 B0]. destruct (k_lab _ _ _ _ IC _ C0) as (b' & Eb & Hb & _).
      assert (b = Z.of_nat b') by congruence. subst b. rewrite H, Nat2Z.id. rewrite H in CN, A.
      exists (cnt ++ [v]). constructor; cbn [w_lab w_chg w_vol w_edges w_added]; auto.
      * apply count_step; auto. congruence.
      * intros u. rewrite !in_app_iff, II. cbn. split.
        -- intros [[[H1 H2]|H1]|[<-|[]]]; auto.
        -- intros [[[H1|[<-|[]]] H2]|H1]; auto.
      * intros u Hu Mu. apply in_app_or in Hu as [Hu|[<-|[]]]; [auto|congruence].
      * intros u Hu. split; [apply in_or_app; left|]; now apply IE.
      * intros u Hu NU Mu n Un. rewrite !lab_at_upd by (rewrite L1; now apply Hlt).
        apply in_app_or in Hu as [Hu|[<-|[]]].
        -- destruct (INT u Hu NU Mu n Un) as [A1 B1].
           assert (v <> n) by congruence. assert (v <> u) by congruence.
           rewrite (proj2 (Nat.eqb_neq v n)), (proj2 (Nat.eqb_neq v u)) by assumption. split; [exact A1|apply in_or_app; now left].
        -- destruct (CN n Un) as [A1 B1]. assert (v <> n) by congruence.
           rewrite (proj2 (Nat.eqb_neq v n)), Nat.eqb_refl by assumption. split; [exact B1|apply in_or_app; now left].
Qed.

Lemma interior_phase_inv : exists cnt,
  interior_inv order (interior_phase ref chg mask vor best maxidx order lab0) cnt.
Proof.
  unfold interior_phase. set (st0 := {| w_lab := lab0 |}).
  apply (fold_inv (interior_step ref chg mask vor best maxidx) (fun done st => exists cnt, interior_inv done st cnt)).
  - exists []. constructor; cbn; auto; try tauto.
    + constructor; cbn; [rewrite !repeat_length; auto|constructor|tauto|tauto|reflexivity| |];
      intros b Hb; rewrite nth_repeat; reflexivity.
    + split; constructor.
  - intros pre x post s E (cnt & I). eapply interior_step_inv; eauto.
Qed.

(** ** Fluxes *)
Notation W := (interior_phase ref chg mask vor best maxidx order lab0).
Notation lab1 := (w_lab W).
Notation edges := (w_edges W).
Notation stale := (w_stale W).

(** The number stored for a neighbour: its basin, or a code for an edge voxel. *)
Definition code (n : nat) : Z := if lab_at lab1 n =? -1 then - Z.of_nat n - 1 else lab_at lab1 n.
(** The variable compared in line 230 matches no neighbour of [v]. *)
Definition no_clash (v : nat) : Prop := forall n, uphill v n -> code n <> stale.

Definition flux (v : nat) (na : nat * Q) : Q := ((ref (fst na) - ref v) * snd na)%Q.

Lemma edges_spec : (forall v, In v edges -> In v order /\ mask v = false /\ lab_at lab1 v = -1) /\
  (forall v, In v order -> ~ In v edges -> exists b, lab_at lab1 v = Z.of_nat b /\ (b < K)%nat /\ (mask v = true -> b = basin v)) /\
  NoDup edges /\ StronglySorted (fun a b => ref b <= ref a)%Q edges.
Proof.
  destruct interior_phase_inv as (cnt & [IC II IA IR IE [IES IEN] INT]). split; [|split; [|auto]].
  - intros v Hv. destruct (IE v Hv) as [O M]. split; [exact O|]. split; [exact M|].
    assert (NC : ~ In v cnt).
    { rewrite II. intros [[_ H]|H]; [contradiction|]. apply IA in H as (r & Er & _ & Mr & _). assert (r = v) by lia. congruence. }
    rewrite (k_old _ _ _ _ IC _ NC). apply lab0_other. now left.
  - intros v Hv NE. apply (k_lab _ _ _ _ IC). apply II. now left.
Qed.

Lemma code_edge n : In n edges -> code n = - Z.of_nat n - 1.
Proof. intros H. unfold code. destruct (proj1 edges_spec n H) as (_ & _ & ->). reflexivity. Qed.

Lemma code_basin n : In n order -> ~ In n edges -> exists b, code n = Z.of_nat b /\ (b < K)%nat /\ lab_at lab1 n = Z.of_nat b.
Proof.
  intros H NE. destruct (proj1 (proj2 edges_spec) n H NE) as (b & E & L & _). exists b. unfold code. rewrite E.
  replace (Z.of_nat b =? -1) with false by lia. auto.
Qed.

Lemma add_flux_sum st row f nl : (qsum (map fst (add_flux st row f nl)) == qsum (map fst row) + f)%Q.
Proof.
  induction row as [|[g l] t IH]; cbn [add_flux map fst]; [cbn; ring|].
  destruct (st =? l); cbn [map fst]; rewrite !qsum_cons; [ring|rewrite IH; ring].
Qed.
Lemma add_flux_in st row f nl g l : In (g, l) (add_flux st row f nl) -> (0 < f)%Q ->
  (forall g' l', In (g', l') row -> (0 < g')%Q) ->
  (0 < g)%Q /\ (l = nl \/ exists g', In (g', l) row).
Proof.
  induction row as [|[g0 l0] t IH]; cbn [add_flux]; intros H F P.
  - destruct H as [[= <- <-]|[]]. auto.
  - assert (P0 : (0 < g0)%Q) by (eapply P; left; reflexivity).
    destruct (st =? l0).
    + destruct H as [[= <- <-]|H]; [split; [lra|right; exists g0; now left]|].
      split; [eapply P; right; eauto|right; exists g; now right].
    + destruct H as [[= <- <-]|H]; [split; [exact P0|right; exists g0; now left]|].
      destruct IH as (A & B); auto; [intros; eapply P; right; eauto|]. split; [exact A|].
      destruct B as [->|(g' & B)]; [now left|right; exists g'; now right].
Qed.
Lemma add_flux_nil st row f nl : add_flux st row f nl <> [].
Proof. destruct row as [|[g l] t]; cbn; [discriminate|]. destruct (st =? l); discriminate. Qed.
Lemma add_flux_app st row f nl : (forall g l, In (g, l) row -> l <> st) -> add_flux st row f nl = row ++ [(f, nl)].
Proof.
  induction row as [|[g l] t IH]; cbn; intros H; [reflexivity|].
  replace (st =? l) with false by (specialize (H g l (or_introl eq_refl)); lia). rewrite IH; [reflexivity|]. intros; eapply H; eauto.
Qed.

Definition fsum (v : nat) (g : nat -> Q) (l : list (nat * Q)) : Q :=
  qsum (map (fun na => if Qltb (ref v) (ref (fst na)) then flux v na * g (fst na) else 0)%Q l).

Lemma fsum_snoc v g l x : (fsum v g (l ++ [x]) == fsum v g l + if Qltb (ref v) (ref (fst x)) then flux v x * g (fst x) else 0)%Q.
Proof. unfold fsum. rewrite map_app. cbn [map]. apply qsum_snoc. Qed.

Record row_inv (v : nat) (pre : list (nat * Q)) (st : Q * list (Q * Z)) : Prop := {
  r_tot : (fst st == fsum v (fun _ => 1) pre)%Q;
  r_sum : (qsum (map fst (snd st)) == fst st)%Q;
  r_in : forall f z, In (f, z) (snd st) -> (0 < f)%Q /\ exists n a, In (n, a) (vor v) /\ (ref v < ref n)%Q /\ z = code n;
  r_nil : snd st = [] -> forall n a, In (n, a) pre -> (ref n <= ref v)%Q;
  r_lin : no_clash v -> forall g : Z -> Q,
    (qsum (map (fun fz => fst fz * g (snd fz)) (snd st)) == fsum v (fun n => g (code n)) pre)%Q
}.

Lemma row_inv_end v : row_inv v (vor v) (fold_left (flux_step ref stale lab1 v) (vor v) (0%Q, [])).
Proof.
  apply (fold_inv (flux_step ref stale lab1 v) (row_inv v)).
  - constructor; cbn; try reflexivity; try tauto.
  - intros pre [n a] post [tot row] E [RT RS RI RN RL]. cbn [fst snd] in *.
    assert (IV : In (n, a) (vor v)) by (rewrite E; apply in_or_app; right; now left).
    unfold flux_step. destruct (Qle_bool (ref n) (ref v)) eqn:C.
    + apply Qle_bool_iff in C. assert (C' : Qltb (ref v) (ref n) = false) by (now apply Qltb_ge).
      constructor; cbn [fst snd].
      * rewrite fsum_snoc. cbn [fst]. rewrite C', RT. ring.
      * exact RS.
      * exact RI.
      * intros Er m b H. apply in_app_or in H as [H|[[= <- <-]|[]]]; eauto.
      * intros NC g. rewrite fsum_snoc. cbn [fst]. rewrite C', RL by exact NC. ring.
    + apply Qle_bool_false in C. assert (C' : Qltb (ref v) (ref n) = true) by (now apply Qltb_lt).
      assert (FP : (0 < (ref n - ref v) * a)%Q).
      { apply Qmult_lt_0_compat; [lra|]. eapply Halpha; eauto. }
      set (row' := if lab_at lab1 n =? -1 then _ else _).
      assert (RI' : forall f z, In (f, z) row' -> (0 < f)%Q /\ exists n a, In (n, a) (vor v) /\ (ref v < ref n)%Q /\ z = code n).
      { intros f z H. unfold row' in H. destruct (lab_at lab1 n =? -1) eqn:LN.
        - apply in_app_or in H as [H|[[= <- <-]|[]]]; [auto|]. split; [exact FP|]. exists n, a. unfold code. rewrite LN. auto.
        - apply add_flux_in in H as [P [->|(g' & H)]]; auto.
          + split; [exact P|]. exists n, a. unfold code. rewrite LN. auto.
          + split; [exact P|]. now apply (RI g').
          + intros g' l' H'. now apply (RI g' l'). }
      constructor; cbn [fst snd].
      * rewrite fsum_snoc. cbn [fst]. rewrite C', RT. unfold flux. cbn [fst snd]. ring.
      * unfold row'. destruct (lab_at lab1 n =? -1).
        -- rewrite map_app. cbn [map fst]. rewrite qsum_snoc, RS. reflexivity.
        -- rewrite add_flux_sum, RS. reflexivity.
      * exact RI'.
      * intros Er. exfalso. unfold row' in Er. destruct (lab_at lab1 n =? -1); [now destruct row|now apply add_flux_nil in Er].
      * intros NC g. rewrite fsum_snoc. cbn [fst]. rewrite C', <- RL by exact NC.
        assert (ER : row' = row ++ [(((ref n - ref v) * a)%Q, code n)]).
        { unfold row', code. destruct (lab_at lab1 n =? -1); [reflexivity|]. apply add_flux_app. intros f z H.
          destruct (RI _ _ H) as (_ & m & b & Hm & Lm & ->). apply NC. left. exists b. auto. }
        rewrite ER, map_app. cbn [map fst snd]. rewrite qsum_snoc. reflexivity.
Qed.

Lemma qsum_map_div {A} (f : A -> Q) t l : (~ t == 0 -> qsum (map (fun x => f x / t) l) == qsum (map f l) / t)%Q.
Proof.
  intros H. rewrite (qsum_map_ext _ (fun x => (/ t) * f x)%Q) by (intros; field; exact H).
  rewrite qsum_map_scale. field. exact H.
Qed.

Lemma flux_row_spec v : In v order -> mask v = false ->
  let row := flux_row ref vor best stale lab1 v in
  (qsum (map fst row) == 1)%Q /\
  (forall f z, In (f, z) row -> (0 < f)%Q /\ exists n, uphill v n /\ z = code n) /\
  ((forall n a, In (n, a) (vor v) -> (ref n <= ref v)%Q) -> forall g : Z -> Q,
     (qsum (map (fun fz => fst fz * g (snd fz)) row) == g (code (best v)))%Q) /\
  ((exists n a, In (n, a) (vor v) /\ (ref v < ref n)%Q) -> no_clash v -> forall g : Z -> Q,
     (qsum (map (fun fz => fst fz * g (snd fz)) row) == fsum v (fun n => g (code n)) (vor v) / outflow ref vor v)%Q).
Proof.
  intros Hv M row. unfold row, flux_row. clear row.
  pose proof (row_inv_end v) as [RT RS RI RN RL].
  destruct (fold_left (flux_step ref stale lab1 v) (vor v) (0%Q, [])) as [tot rw]. cbn [fst snd] in *.
  assert (OF : (outflow ref vor v == tot)%Q).
  { rewrite RT. unfold outflow, fsum, flux. apply qsum_map_ext. intros [n a] _. cbn [fst snd]. destruct (Qltb _ _); ring. }
  destruct rw as [|r0 rt] eqn:ERW.
  - specialize (RN eq_refl). assert (UB : uphill v (best v)) by (right; auto).
    assert (EC : (if 0 <=? lab_at lab1 (best v) then lab_at lab1 (best v) else - Z.of_nat (best v) - 1) = code (best v)).
    { destruct (Hup v _ Hv M UB) as [OB _]. destruct (in_dec Nat.eq_dec (best v) edges) as [I|I].
      - unfold code. destruct (proj1 edges_spec _ I) as (_ & _ & ->). reflexivity.
      - destruct (code_basin _ OB I) as (b & -> & _ & ->). now replace (0 <=? Z.of_nat b) with true by lia. }
    cbv zeta. rewrite EC. split; [reflexivity|]. split; [|split].
    + intros f z [[= <- <-]|[]]. split; [reflexivity|]. exists (best v). auto.
    + intros _ g. cbn. field.
    + intros (n & a & H & L). apply RN in H. lra.
  - rewrite <- ERW in *. assert (TP : (0 < tot)%Q).
    { rewrite <- RS, ERW. cbn [map]. rewrite qsum_cons.
      assert (0 < fst r0)%Q by (destruct r0 as [f z]; apply (RI f z); rewrite ERW; now left).
      assert (0 <= qsum (map fst rt))%Q.
      { apply qsum_nonneg. intros x Hx. apply in_map_iff in Hx as ([f z] & <- & Hx). apply Qlt_le_weak. apply (RI f z). rewrite ERW. now right. }
      cbn [fst] in *. lra. }
    assert (TN : ~ (tot == 0)%Q) by lra.
    split; [|split; [|split]].
    + rewrite map_map. cbn [fst]. rewrite qsum_map_div by exact TN. rewrite RS. field. exact TN.
    + intros f z H. apply in_map_iff in H as ([f' z'] & [= <- <-] & H). destruct (RI _ _ H) as (P & n & a & Hn & L & ->).
      split; [apply Qlt_shift_div_l; [exact TP|lra]|]. exists n. split; [|reflexivity]. left. exists a. auto.
    + intros NH. exfalso. destruct r0 as [f z]. destruct (RI f z) as (_ & n & a & Hn & L & _); [rewrite ERW; now left|].
      apply NH in Hn. lra.
    + intros _ NC g. rewrite map_map. cbn [fst snd]. rewrite OF, <- RL by exact NC.
      rewrite (qsum_map_ext _ (fun fz : Q * Z => (fst fz * g (snd fz)) / tot)%Q) by (intros; field; exact TN).
      now apply qsum_map_div.
Qed.

(** ** Edge phase *)
Hypothesis HK : (Z.of_nat K < 10 ^ 6)%Z.

Lemma index_of_some n l e : index_of n l = Some e -> nth_error l e = Some n.
Proof.
  revert e. induction l as [|x t IH]; cbn; intros e H; [discriminate|].
  destruct (Nat.eqb_spec x n) as [->|]; [now injection H as <-|].
  destruct (index_of n t) as [k|]; [|discriminate]. injection H as <-. cbn. auto.
Qed.
Lemma index_of_pre n pre post : In n pre -> exists e, index_of n (pre ++ post) = Some e /\ (e < length pre)%nat.
Proof.
  induction pre as [|x t IH]; [contradiction|]. cbn. intros H. destruct (Nat.eqb_spec x n) as [->|NE].
  - exists 0%nat. split; [reflexivity|lia].
  - destruct H as [->|H]; [congruence|]. destruct (IH H) as (e & -> & L). exists (S e). split; [reflexivity|lia].
Qed.

Record good_red (red : list (nat * Q)) : Prop := {
  g_nd : NoDup (map fst red);
  g_in : forall l w, In (l, w) red -> (l < K)%nat /\ (0 < w)%Q;
  g_sum : (qsum (map snd red) == 1)%Q
}.

(** Weight of basin [b] in the row entry [z]. *)
Definition cw (all : list (list (nat * Q))) (z : Z) (b : nat) : Q :=
  if 0 <=? z then (if Nat.eqb (Z.to_nat z) b then 1 else 0)%Q
  else match index_of (Z.to_nat (- z - 1)) edges with Some e => wof (nth e all []) b | None => 0%Q end.

Definition entry_ok (all : list (list (nat * Q))) (z : Z) : Prop :=
  (exists b, z = Z.of_nat b /\ (b < K)%nat) \/
  (exists n e red, z = - Z.of_nat n - 1 /\ index_of n edges = Some e /\ nth_error all e = Some red /\ good_red red).

Lemma cw_total all z : entry_ok all z -> (qsum (map (cw all z) (seq 0 K)) == 1)%Q.
Proof.
  intros [(b & -> & L)|(n & e & red & -> & I & E & G)]; unfold cw.
  - replace (0 <=? Z.of_nat b) with true by lia. rewrite Nat2Z.id. now apply qsum_indicator.
  - replace (0 <=? - Z.of_nat n - 1) with false by lia. replace (Z.to_nat (- (- Z.of_nat n - 1) - 1)) with n by lia.
    rewrite I. rewrite (nth_error_nth _ _ _ E). rewrite wof_total; [apply G|]. intros x w H. now apply G in H.
Qed.
Lemma cw_nonneg all z b : entry_ok all z -> (0 <= cw all z b)%Q.
Proof.
  intros [(b' & -> & L)|(n & e & red & -> & I & E & G)]; unfold cw.
  - replace (0 <=? Z.of_nat b') with true by lia. destruct (Nat.eqb _ _); lra.
  - replace (0 <=? - Z.of_nat n - 1) with false by lia. replace (Z.to_nat (- (- Z.of_nat n - 1) - 1)) with n by lia.
    rewrite I. rewrite (nth_error_nth _ _ _ E). apply wof_nonneg. intros x w H. apply G in H. lra.
Qed.

Lemma contribs_spec all row : (forall f z, In (f, z) row -> (0 < f)%Q /\ entry_ok all z) ->
  exists cs, contribs edges all row = Done cs /\ (forall l x, In (l, x) cs -> (l < K)%nat /\ (0 < x)%Q) /\
    (forall b, wof cs b == qsum (map (fun fz => fst fz * cw all (snd fz) b) row))%Q.
Proof.
  induction row as [|[f z] t IH]; intros H.
  - exists []. cbn. split; [reflexivity|]. split; [tauto|reflexivity].
  - destruct IH as (cs & E & I & S); [intros; eapply H; right; eauto|].
    destruct (H f z (or_introl eq_refl)) as [F [(b & -> & L)|(n & e & red & -> & IX & EA & G)]]; cbn [contribs].
    + replace (0 <=? Z.of_nat b) with true by lia. cbn [obind]. rewrite E. cbn [obind]. rewrite Nat2Z.id.
      exists ((b, f) :: cs). split; [reflexivity|]. split.
      * intros l x [[= <- <-]|Hx]; auto.
      * intros b'. rewrite wof_cons. cbn [map fst snd]. rewrite qsum_cons, S. unfold cw at 2.
        replace (0 <=? Z.of_nat b) with true by lia. rewrite Nat2Z.id. destruct (Nat.eqb b b'); ring.
    + replace (0 <=? - Z.of_nat n - 1) with false by lia. replace (Z.to_nat (- (- Z.of_nat n - 1) - 1)) with n by lia.
      rewrite IX, EA. cbn [obind]. rewrite E. cbn [obind]. eexists. split; [reflexivity|]. split.
      * intros l x Hx. apply in_app_or in Hx as [Hx|Hx]; [|auto].
        apply in_map_iff in Hx as ([l' w] & [= <- <-] & Hx). apply G in Hx as [L P]. cbn [fst snd]. split; [exact L|]. now apply Qmult_lt_0_compat.
      * intros b'. rewrite wof_app, S. cbn [map fst snd]. rewrite qsum_cons.
        assert (C : (cw all (- Z.of_nat n - 1) b' == wof red b')%Q).
        { unfold cw. replace (0 <=? - Z.of_nat n - 1) with false by lia. replace (Z.to_nat (- (- Z.of_nat n - 1) - 1)) with n by lia.
          rewrite IX, (nth_error_nth _ _ _ EA). reflexivity. }
        rewrite C. apply Qplus_inj_r. unfold wof. rewrite map_map. cbn [fst snd].
        rewrite <- qsum_map_scale. apply qsum_map_ext. intros [l w] _. cbn [fst snd]. destruct (Nat.eqb l b'); ring.
Qed.

Definition zeros (sc : list Q) : Prop := forall b, (nth b sc 0 == 0)%Q.

Lemma scratch_spec cs : (forall l x, In (l, x) cs -> (l < K)%nat) ->
  forall sc wm cur, length sc = K -> length wm = K -> NoDup cur -> (forall b, nth b wm false = true <-> In b cur) ->
  (forall b, In b cur -> (b < K)%nat) ->
  let '(sc', wm', cur') := fold_left scratch_step cs (sc, wm, cur) in
  length sc' = K /\ length wm' = K /\ NoDup cur' /\ (forall b, nth b wm' false = true <-> In b cur') /\
  (forall b, In b cur' -> (b < K)%nat) /\
  (forall b, nth b sc' 0 == nth b sc 0 + wof cs b)%Q /\ (forall b, In b cur' <-> In b cur \/ In b (map fst cs)).
Proof.
  induction cs as [|[l x] t IH]; intros HL sc wm cur LS LW ND WM CL; cbn [fold_left].
  - repeat split; auto; try (now apply WM); try (intros b; cbn; ring); try (cbn; tauto). 
  - assert (Ll : (l < K)%nat) by (eapply HL; left; reflexivity).
    cbn [scratch_step]. set (wm1 := if nth l wm false then wm else upd wm l true). set (cur1 := if nth l wm false then cur else cur ++ [l]).
    assert (LW1 : length wm1 = K) by (unfold wm1; destruct (nth l wm false); [|rewrite upd_length]; exact LW).
    assert (ND1 : NoDup cur1).
    { unfold cur1. destruct (nth l wm false) eqn:E; [exact ND|]. apply NoDup_snoc; [exact ND|]. rewrite <- WM. congruence. }
    assert (C1 : forall b, In b cur1 <-> In b cur \/ b = l).
    { intros b. unfold cur1. destruct (nth l wm false) eqn:E.
      - apply WM in E. split; [tauto|]. intros [H| ->]; auto.
      - rewrite in_app_iff. cbn. split; [intros [H|[->|[]]]|intros [H| ->]]; auto. }
    assert (WM1 : forall b, nth b wm1 false = true <-> In b cur1).
    { intros b. rewrite C1. unfold wm1. destruct (nth l wm false) eqn:E.
      - rewrite WM. apply WM in E. split; [tauto|]. intros [H| ->]; auto.
      - rewrite nth_upd, LW. replace (Nat.ltb l K) with true by lia. rewrite andb_true_r. destruct (Nat.eqb_spec l b) as [->|NE].
        + tauto.
        + rewrite WM. split; [tauto|]. intros [H| ->]; [exact H|congruence]. }
    assert (CL1 : forall b, In b cur1 -> (b < K)%nat) by (intros b Hb; apply C1 in Hb as [Hb| ->]; auto).
    specialize (IH ltac:(intros; eapply HL; right; eauto) (add_at sc l x) wm1 cur1 ltac:(now rewrite add_at_length) LW1 ND1 WM1 CL1).
    destruct (fold_left scratch_step t (add_at sc l x, wm1, cur1)) as [[sc' wm'] cur'].
    destruct IH as (A & B & C & D & E & F & G). repeat (split; auto).
    + intros b. rewrite F, nth_add_at by lia. rewrite wof_cons. ring.
    + intros Hb. apply G in Hb as [Hb|Hb]; [|right; now right]. apply C1 in Hb as [Hb| ->]; [now left|right; now left].
    + intros [Hb|[<-|Hb]]; apply G; [left; apply C1; now left|left; apply C1; now right|now right].
Qed.

Lemma nat_insert_perm x l : Permutation (nat_insert x l) (x :: l).
Proof.
  induction l as [|y t IH]; cbn; [reflexivity|]. destruct (Nat.leb x y); [reflexivity|].
  rewrite IH. apply perm_swap.
Qed.
Lemma nat_sort_perm l : Permutation (nat_sort l) l.
Proof. induction l as [|x t IH]; cbn; [reflexivity|]. rewrite nat_insert_perm. now constructor. Qed.

Lemma wt_insert_perm x l : Permutation (wt_insert x l) (x :: l).
Proof.
  induction l as [|y t IH]; cbn; [reflexivity|]. destruct (Qle_bool (snd x) (snd y)); [reflexivity|].
  rewrite IH. apply perm_swap.
Qed.
Lemma wt_sort_perm l : Permutation (wt_sort l) l.
Proof. induction l as [|x t IH]; cbn; [reflexivity|]. rewrite wt_insert_perm. now constructor. Qed.

Record assign_inv (charge : Q) (sc0 : list Q) (wm0 : list bool) (c0 v0 : list Q) (pre : list nat) (e : est) : Prop := {
  a_len : length (e_sc e) = K /\ length (e_wm e) = K /\ length (e_c e) = K /\ length (e_v e) = K;
  a_sc : forall b, nth b (e_sc e) 0%Q = if existsb (Nat.eqb b) pre then 0%Q else nth b sc0 0%Q;
  a_wm : forall b, nth b (e_wm e) false = if existsb (Nat.eqb b) pre then false else nth b wm0 false;
  a_c : forall b, (nth b (e_c e) 0 == nth b c0 0 + if existsb (Nat.eqb b) pre then charge * nth b sc0 0 else 0)%Q;
  a_v : forall b, (nth b (e_v e) 0 == nth b v0 0 + if existsb (Nat.eqb b) pre then nth b sc0 0 else 0)%Q;
  a_red : e_red e = filter (fun lw => negb (Qltb (snd lw) w_cut)) (map (fun l => (l, nth l sc0 0%Q)) pre);
  a_tot : (e_tot e == qsum (map snd (e_red e)))%Q;
  a_top : forall l w, In (l, w) (e_red e) -> (w <= e_bw e + w_tol)%Q;
  a_bw : (0 <= e_bw e)%Q;
  a_bl : (e_bl e = -1 /\ e_bw e = 0%Q) \/ exists l, e_bl e = Z.of_nat l /\ In (l, e_bw e) (e_red e)
}.

Lemma w_cut_pos : (0 < w_cut)%Q.
Proof. reflexivity. Qed.
Lemma w_tol_pos : (0 < w_tol)%Q.
Proof. reflexivity. Qed.

Lemma existsb_snoc b l x : existsb (Nat.eqb b) (l ++ [x]) = existsb (Nat.eqb b) l || Nat.eqb b x.
Proof. rewrite existsb_app. cbn. now rewrite orb_false_r. Qed.
Lemma existsb_nat b l : existsb (Nat.eqb b) l = true <-> In b l.
Proof.
  rewrite existsb_exists. split; [intros (x & H & E); apply Nat.eqb_eq in E; now subst|].
  intros H. exists b. split; [exact H|apply Nat.eqb_refl].
Qed.
Lemma existsb_nat_false b l : existsb (Nat.eqb b) l = false <-> ~ In b l.
Proof. rewrite <- existsb_nat. destruct (existsb (Nat.eqb b) l); split; congruence. Qed.

Lemma assign_spec charge sc0 wm0 c0 v0 cur : length sc0 = K -> length wm0 = K -> length c0 = K -> length v0 = K ->
  NoDup cur -> (forall b, In b cur -> (b < K)%nat) ->
  assign_inv charge sc0 wm0 c0 v0 cur (fold_left (assign_step charge) cur
     {| e_sc := sc0; e_wm := wm0; e_c := c0; e_v := v0; e_bl := -1; e_bw := 0%Q; e_tot := 0%Q; e_tied := false; e_red := [] |}).
Proof.
  intros L1 L2 L3 L4 ND CL. apply (fold_inv (assign_step charge) (assign_inv charge sc0 wm0 c0 v0)).
  - constructor; cbn; auto; try reflexivity; try (intros; ring); try tauto. lra.
  - intros pre x post e EC [(S1 & S2 & S3 & S4) AS AW AC AV AR AT AP AB ABL].
    assert (Hx : (x < K)%nat) by (apply CL; rewrite EC; apply in_or_app; right; now left).
    assert (NI : existsb (Nat.eqb x) pre = false).
    { apply existsb_nat_false. rewrite EC in ND. apply NoDup_remove_2 in ND. intros H. apply ND, in_or_app. now left. }
    assert (EW : nth x (e_sc e) 0%Q = nth x sc0 0%Q) by (rewrite AS, NI; reflexivity).
    assert (Q1 : forall b, nth b (upd (e_sc e) x 0%Q) 0%Q = if existsb (Nat.eqb b) (pre ++ [x]) then 0%Q else nth b sc0 0%Q).
    { intros b. rewrite nth_upd, S1, existsb_snoc, AS. replace (Nat.ltb x K) with true by lia. rewrite andb_true_r.
      rewrite (Nat.eqb_sym b x). destruct (Nat.eqb x b), (existsb (Nat.eqb b) pre); reflexivity. }
    assert (Q2 : forall b, nth b (upd (e_wm e) x false) false = if existsb (Nat.eqb b) (pre ++ [x]) then false else nth b wm0 false).
    { intros b. rewrite nth_upd, S2, existsb_snoc, AW. replace (Nat.ltb x K) with true by lia. rewrite andb_true_r.
      rewrite (Nat.eqb_sym b x). destruct (Nat.eqb x b), (existsb (Nat.eqb b) pre); reflexivity. }
    assert (Q3 : forall b, (nth b (add_at (e_c e) x (charge * nth x sc0 0)) 0 == nth b c0 0 + if existsb (Nat.eqb b) (pre ++ [x]) then charge * nth b sc0 0 else 0)%Q).
    { intros b. rewrite nth_add_at by lia. rewrite AC, existsb_snoc, (Nat.eqb_sym b x). destruct (Nat.eqb_spec x b) as [->|].
      - rewrite NI. cbn. ring.
      - rewrite orb_false_r. ring. }
    assert (Q4 : forall b, (nth b (add_at (e_v e) x (nth x sc0 0)) 0 == nth b v0 0 + if existsb (Nat.eqb b) (pre ++ [x]) then nth b sc0 0 else 0)%Q).
    { intros b. rewrite nth_add_at by lia. rewrite AV, existsb_snoc, (Nat.eqb_sym b x). destruct (Nat.eqb_spec x b) as [->|].
      - rewrite NI. cbn. ring.
      - rewrite orb_false_r. ring. }
    unfold assign_step. rewrite EW. set (w := nth x sc0 0%Q) in *.
    assert (Q5 : filter (fun lw : nat * Q => negb (Qltb (snd lw) w_cut)) (map (fun l => (l, nth l sc0 0%Q)) (pre ++ [x])) =
                 e_red e ++ if Qltb w w_cut then [] else [(x, w)]).
    { rewrite map_app, filter_app, <- AR. cbn [map filter snd]. fold w. destruct (Qltb w w_cut); reflexivity. }
    destruct (Qltb w w_cut) eqn:CUT.
    + constructor; cbn; auto.
      * rewrite !upd_length, !add_at_length. auto.
      * rewrite Q5. now rewrite app_nil_r.
    + apply Qltb_ge in CUT. constructor; cbn; auto.
      * rewrite !upd_length, !add_at_length. auto.
      * rewrite map_app. cbn [map snd]. rewrite qsum_snoc, AT. reflexivity.
      * intros l u H. apply in_app_or in H as [H|[[= <- <-]|[]]].
        -- specialize (AP l u H). destruct (Qltb_spec (e_bw e + w_tol) w); [|lra]. pose proof w_tol_pos. lra.
        -- destruct (Qltb_spec (e_bw e + w_tol) w); [pose proof w_tol_pos; lra|lra].
      * pose proof w_cut_pos. destruct (Qltb (e_bw e + w_tol) w); lra.
      * destruct (Qltb (e_bw e + w_tol) w) eqn:U.
        -- right. exists x. split; [reflexivity|]. apply in_or_app. right. now left.
        -- destruct ABL as [ABL|(l & E1 & E2)]; [now left|right]. exists l. split; [exact E1|]. apply in_or_app. now left.
Qed.

Lemma In_skipn {A} n (l : list A) x : In x (skipn n l) -> In x l.
Proof. intros H. rewrite <- (firstn_skipn n l). apply in_or_app. now right. Qed.
Lemma NoDup_skipn {A} n (l : list A) : NoDup l -> NoDup (skipn n l).
Proof.
  revert n. induction l as [|x t IH]; intros [|n] H; cbn; auto. apply IH. now apply NoDup_cons_iff in H.
Qed.

Lemma wof_div l t b : ~ (t == 0)%Q -> (wof (map (fun lw => (fst lw, snd lw / t)%Q) l) b == wof l b / t)%Q.
Proof.
  intros H. unfold wof. rewrite map_map. cbn [fst snd]. rewrite <- qsum_map_div by exact H. apply qsum_map_ext.
  intros [x w] _. cbn [fst snd]. destruct (Nat.eqb x b); [reflexivity|]. field. exact H.
Qed.

Lemma cap_spec tot red : NoDup (map fst red) -> (forall l w, In (l, w) red -> (l < K)%nat /\ (0 < w)%Q) -> red <> [] ->
  (tot == qsum (map snd red))%Q ->
  good_red (cap tot red) /\
  (forall l w', In (l, w') (cap tot red) -> exists w, In (l, w) red /\ ((length red <= 26)%nat -> (w' == w / tot)%Q)) /\
  ((length red <= 26)%nat -> (0 < tot)%Q /\ forall b, (wof (cap tot red) b == wof red b / tot)%Q).
Proof.
  intros ND POS NE HT. unfold cap.
  assert (G : forall t r, NoDup (map fst r) -> (forall l w, In (l, w) r -> (l < K)%nat /\ (0 < w)%Q) -> r <> [] ->
    (t == qsum (map snd r))%Q -> (0 < t)%Q /\ good_red (map (fun lw => (fst lw, snd lw / t)%Q) r)).
  { intros t r N1 P1 E1 T1. assert (TP : (0 < t)%Q).
    { rewrite T1. destruct r as [|[l w] r']; [congruence|]. cbn [map snd]. rewrite qsum_cons.
      assert (0 < w)%Q by (apply (P1 l w); now left).
      assert (0 <= qsum (map snd r'))%Q; [|lra]. apply qsum_nonneg. intros y Hy. apply in_map_iff in Hy as ([l' w'] & <- & Hy).
      apply Qlt_le_weak. apply (P1 l' w'). now right. }
    split; [exact TP|]. constructor.
    - rewrite map_map. cbn [fst]. exact N1.
    - intros l w H. apply in_map_iff in H as ([l' w'] & [= <- <-] & H). apply P1 in H as [L P]. split; [exact L|]. cbn [snd].
      apply Qlt_shift_div_l; [exact TP|lra].
    - rewrite map_map. cbn [snd]. rewrite qsum_map_div by lra. rewrite <- T1. field. lra. }
  destruct (Nat.ltb_spec 26 (length red)) as [L|L].
  - set (top := skipn (length red - 26) (wt_sort red)).
    assert (IT : forall x, In x top -> In x red).
    { intros x H. apply In_skipn in H. apply (Permutation_in x (wt_sort_perm red)) in H. exact H. }
    destruct (G (qsum (map snd top)) top) as [TP GR].
    + unfold top. rewrite <- skipn_map. apply NoDup_skipn. apply (Permutation_NoDup (l := map fst red)); [|exact ND].
      apply Permutation_map, Permutation_sym, wt_sort_perm.
    + intros l w H. apply POS. now apply IT.
    + intros E. apply (f_equal (@length _)) in E. unfold top in E. rewrite skipn_length in E. cbn in E.
      rewrite (Permutation_length (wt_sort_perm red)) in E. lia.
    + reflexivity.
    + split; [exact GR|]. split; [|lia]. intros l w' H. apply in_map_iff in H as ([l0 w] & [= <- <-] & H). exists w. split; [now apply IT|lia].
  - destruct (G tot red ND POS NE HT) as [TP GR]. split; [exact GR|]. split.
    + intros l w' H. apply in_map_iff in H as ([l0 w] & [= <- <-] & H). exists w. split; [exact H|]. reflexivity.
    + intros _. split; [exact TP|]. intros b. apply wof_div. lra.
Qed.

Lemma tie_loop_spec charge bw ap c l : forall bi bl,
  (tie_loop charge bw ap c l bi bl = Raised /\ exists b w, In (b, w) l /\ (nth b c 0 == 0)%Q) \/
  (exists r, tie_loop charge bw ap c l bi bl = Done r /\ (r = bl \/ exists b w, In (b, w) l /\ r = Z.of_nat b /\ (bw - w_tol <= w)%Q)).
Proof.
  induction l as [|[b w] t IH]; intros bi bl; cbn [tie_loop]; [right; exists bl; auto|].
  destruct (Qltb_spec w (bw - w_tol)) as [L|L].
  - destruct (IH bi bl) as [[E (b' & w' & H1 & H2)]|(r & E & H)]; [left|right].
    + split; [exact E|]. exists b', w'. split; [now right|exact H2].
    + exists r. split; [exact E|]. destruct H as [->|(b' & w' & H1 & H2)]; [now left|right]. exists b', w'. split; [now right|exact H2].
  - destruct (Qeq_bool (nth b c 0%Q) 0) eqn:E0.
    + left. split; [reflexivity|]. apply Qeq_bool_iff in E0. exists b, w. split; [now left|exact E0].
    + match goal with |- context[if Qltb ?x ?y then _ else _] => destruct (Qltb x y); set (imp := y) end.
      * destruct (IH imp (Z.of_nat b)) as [[E (b' & w' & H1 & H2)]|(r & E & H)]; [left|right].
        -- split; [exact E|]. exists b', w'. split; [now right|exact H2].
        -- exists r. split; [exact E|]. right. destruct H as [->|(b' & w' & H1 & H2)].
           ++ exists b, w. split; [now left|auto].
           ++ exists b', w'. split; [now right|exact H2].
      * destruct (IH bi bl) as [[E (b' & w' & H1 & H2)]|(r & E & H)]; [left|right].
        -- split; [exact E|]. exists b', w'. split; [now right|exact H2].
        -- exists r. split; [exact E|]. destruct H as [->|(b' & w' & H1 & H2)]; [now left|right]. exists b', w'. split; [now right|exact H2].
Qed.

Definition npos (s : nat -> Q) : nat := length (filter (fun b => Qltb 0 (s b)) (seq 0 K)).
Definition untrunc (s : nat -> Q) : Prop := (forall b, (0 < s b)%Q -> (w_cut <= s b)%Q) /\ (npos s <= 26)%nat.
Definition ok_share (s : nat -> Q) : Prop :=
  (forall b, 0 <= s b)%Q /\ (forall b, (K <= b)%nat -> s b == 0)%Q /\ (qsum (map s (seq 0 K)) == 1)%Q.
Definition label_ok (s : nat -> Q) (z : Z) : Prop :=
  exists b, z = Z.of_nat b /\ (b < K)%nat /\ (0 < s b)%Q /\
    ((npos s <= 26)%nat -> forall b', (s b' <= s b + (3 # 1000000))%Q).
Definition rel (red : list (nat * Q)) (s : nat -> Q) : Prop :=
  good_red red /\ (forall l w, In (l, w) red -> (0 < s l)%Q) /\ (untrunc s -> forall b, (wof red b == s b)%Q).

Definition full (sh : nat -> nat -> Q) (n b : nat) : Q :=
  if in_dec Nat.eq_dec n edges then sh n b else (if (lab_at lab1 n =? Z.of_nat b)%Z then 1 else 0)%Q.

Lemma qsum_le {A} (f g : A -> Q) l : (forall x, In x l -> f x <= g x)%Q -> (qsum (map f l) <= qsum (map g l))%Q.
Proof.
  induction l as [|x t IH]; intros H; cbn [map]; [lra|]. rewrite !qsum_cons.
  assert (f x <= g x)%Q by (apply H; now left). assert (qsum (map f t) <= qsum (map g t))%Q by (apply IH; intros; apply H; now right). lra.
Qed.
Lemma qsum_const {A} (c : Q) (l : list A) : (qsum (map (fun _ => c) l) == inject_Z (Z.of_nat (length l)) * c)%Q.
Proof.
  induction l as [|x t IH]; [cbn; ring|]. cbn [map length]. rewrite qsum_cons, IH, Nat2Z.inj_succ, <- Z.add_1_l, inject_Z_plus. ring.
Qed.
Lemma K_tol : (inject_Z (Z.of_nat K) * w_tol < 1)%Q.
Proof.
  unfold w_tol. assert (inject_Z (Z.of_nat K) < inject_Z (10 ^ 6))%Q by (rewrite <- Zlt_Qlt; exact HK).
  change (inject_Z (10 ^ 6)) with (1000000 # 1)%Q in H. lra.
Qed.
Lemma K_cut : (inject_Z (Z.of_nat K) * w_cut <= w_tol)%Q.
Proof.
  assert (H : (inject_Z (Z.of_nat K) <= inject_Z (10 ^ 6))%Q) by (rewrite <- Zle_Qle; lia).
  apply Qle_trans with (inject_Z (10 ^ 6) * w_cut)%Q; [|vm_compute; discriminate].
  apply Qmult_le_compat_r; [exact H|]. pose proof w_cut_pos. lra.
Qed.

(** From the scratch weights of one voxel to its label and stored weights. *)
Lemma distribute charge sc0 wm0 c0 v0 cur s e ap :
  length sc0 = K -> length wm0 = K -> length c0 = K -> length v0 = K -> NoDup cur -> (forall b, In b cur -> (b < K)%nat) ->
  (forall b, nth b wm0 false = true <-> In b cur) ->
  ok_share s -> (forall b, nth b sc0 0 == s b)%Q -> (forall b, In b cur <-> (0 < s b)%Q) ->
  e = fold_left (assign_step charge) (nat_sort cur)
     {| e_sc := sc0; e_wm := wm0; e_c := c0; e_v := v0; e_bl := -1; e_bw := 0%Q; e_tot := 0%Q; e_tied := false; e_red := [] |} ->
  let red := cap (e_tot e) (e_red e) in
  let o := if negb (e_tied e) then Done (e_bl e) else tie_loop charge (e_bw e) ap (e_c e) red (-1)%Q (e_bl e) in
  length (e_sc e) = K /\ length (e_wm e) = K /\ length (e_c e) = K /\ length (e_v e) = K /\
  zeros (e_sc e) /\ (forall b, nth b (e_wm e) false = false) /\
  (forall b, nth b (e_c e) 0 == nth b c0 0 + charge * s b)%Q /\
  (forall b, nth b (e_v e) 0 == nth b v0 0 + s b)%Q /\
  rel red s /\
  ((o = Raised /\ exists b, (0 < s b)%Q /\ (nth b (e_c e) 0 == 0)%Q) \/ (exists z, o = Done z /\ label_ok s z)).
Proof.
  intros L1 L2 L3 L4 ND CL WM (OK1 & OK2 & OK3) SC CUR Ee red o.
  pose proof (nat_sort_perm cur) as PM.
  assert (ND' : NoDup (nat_sort cur)) by (apply (Permutation_NoDup (Permutation_sym PM)); exact ND).
  assert (IN : forall b, In b (nat_sort cur) <-> In b cur).
  { intros b. split; apply Permutation_in; [exact PM|now apply Permutation_sym]. }
  destruct (assign_spec charge sc0 wm0 c0 v0 (nat_sort cur) L1 L2 L3 L4 ND' ltac:(intros b Hb; now apply CL, IN))
    as [(S1 & S2 & S3 & S4) AS AW AC AV AR AT AP AB ABL]. rewrite <- Ee in *. clear Ee.
  assert (EX : forall b, existsb (Nat.eqb b) (nat_sort cur) = true <-> (0 < s b)%Q).
  { intros b. now rewrite existsb_nat, IN, CUR. }
  assert (EXF : forall b, existsb (Nat.eqb b) (nat_sort cur) = false -> (s b == 0)%Q).
  { intros b Hb. destruct (Qlt_le_dec 0 (s b)) as [H|H]; [apply EX in H; congruence|]. specialize (OK1 b). lra. }
  assert (RED : forall l w, In (l, w) (e_red e) <-> In l cur /\ w = nth l sc0 0%Q /\ (w_cut <= w)%Q).
  { intros l w. rewrite AR, filter_In, in_map_iff. cbn [snd]. rewrite negb_true_iff, Qltb_ge. split.
    - intros ((l' & [= <- <-] & H) & C). rewrite <- IN. auto.
    - intros (H & -> & C). split; [|exact C]. exists l. split; [reflexivity|now apply IN]. }
  assert (REDP : forall l w, In (l, w) (e_red e) -> (l < K)%nat /\ (0 < w)%Q /\ (w == s l)%Q /\ (w_cut <= s l)%Q).
  { intros l w H. apply RED in H as (H & -> & C). pose proof w_cut_pos. rewrite SC in *. repeat split; auto. lra. }
  assert (REDND : NoDup (map fst (e_red e))).
  { rewrite AR. apply (NoDup_map_fst_filter _ _). rewrite map_map. cbn [fst]. now rewrite map_id. }
  (* some weight exceeds the tolerance *)
  assert (BIG : exists b, (w_tol < s b)%Q).
  { destruct (existsb (fun b => Qltb w_tol (s b)) (seq 0 K)) eqn:E.
    - apply existsb_exists in E as (b & _ & E). apply Qltb_lt in E. eauto.
    - exfalso. assert (qsum (map s (seq 0 K)) <= qsum (map (fun _ => w_tol) (seq 0 K)))%Q.
      { apply qsum_le. intros b Hb. destruct (Qltb_spec w_tol (s b)) as [L|L]; [|exact L]. exfalso.
        apply (Bool.diff_true_false). rewrite <- E. symmetry. apply existsb_exists. exists b. split; [exact Hb|now apply Qltb_lt]. }
      rewrite qsum_const, seq_length, OK3 in H. pose proof K_tol. lra. }
  destruct BIG as (big & BIG).
  assert (CT : (w_cut < w_tol)%Q) by reflexivity. pose proof w_cut_pos as CP.
  assert (BIGR : In (big, nth big sc0 0%Q) (e_red e)).
  { apply RED. split; [apply CUR; pose proof w_tol_pos; lra|]. split; [reflexivity|]. rewrite SC. lra. }
  assert (RNE : e_red e <> []) by (intros E; rewrite E in BIGR; contradiction).
  assert (BLP : exists l, e_bl e = Z.of_nat l /\ In (l, e_bw e) (e_red e)).
  { destruct ABL as [[_ Z0]|H]; [|exact H]. exfalso. apply AP in BIGR. rewrite SC, Z0 in BIGR. lra. }
  destruct (cap_spec (e_tot e) (e_red e) REDND ltac:(intros l w H; destruct (REDP l w H) as (A & B & _); auto) RNE AT) as (CG & CI & CL26).
  fold red in CG, CI, CL26.
  (* length of the reduced list *)
  assert (L26 : (npos s <= 26)%nat -> (length (e_red e) <= 26)%nat).
  { intros H. rewrite <- (map_length fst). eapply Nat.le_trans; [|exact H]. apply NoDup_incl_length; [exact REDND|].
    intros b Hb. apply in_map_iff in Hb as ([l w] & <- & Hb). apply REDP in Hb as (A & B & C & D). apply filter_In.
    cbn [fst]. split; [apply in_seq; lia|]. apply Qltb_lt. lra. }
  (* total of the kept weights *)
  assert (WR : forall b, (wof (e_red e) b == if Qltb (s b) w_cut then 0 else s b)%Q).
  { intros b. destruct (Qltb_spec (s b) w_cut) as [L|L].
    - apply wof_out. intros w H. apply REDP in H as (_ & _ & _ & H). lra.
    - rewrite (wof_in _ b (nth b sc0 0%Q)); [apply SC|exact REDND|]. apply RED. split; [apply CUR; lra|]. split; [reflexivity|]. now rewrite SC. }
  assert (TOT : (e_tot e == qsum (map (fun b => if Qltb (s b) w_cut then 0 else s b) (seq 0 K)))%Q).
  { rewrite AT, <- (wof_total (e_red e) K); [now apply qsum_map_ext|]. intros x w H. now apply REDP in H. }
  assert (TLO : (1 - w_tol <= e_tot e)%Q).
  { assert (1 <= e_tot e + inject_Z (Z.of_nat K) * w_cut)%Q; [|pose proof K_cut; lra].
    rewrite TOT, <- OK3. rewrite <- (seq_length K 0) at 3. rewrite <- (qsum_const w_cut (seq 0 K)), <- qsum_map_plus.
    apply qsum_le. intros b _. destruct (Qltb_spec (s b) w_cut); lra. }
  assert (THI : (e_tot e <= 1)%Q).
  { rewrite TOT, <- OK3. apply qsum_le. intros b _. specialize (OK1 b). destruct (Qltb_spec (s b) w_cut); lra. }
  assert (MAX : forall b', (s b' <= e_bw e + w_tol)%Q).
  { intros b'. destruct (Qltb_spec (s b') w_cut) as [L|L]; [lra|].
    assert (In (b', nth b' sc0 0%Q) (e_red e)) by (apply RED; split; [apply CUR; lra|split; [reflexivity|now rewrite SC]]).
    apply AP in H. rewrite SC in H. exact H. }
  assert (LOK : forall b w, In (b, w) (e_red e) -> ((npos s <= 26)%nat -> (e_bw e - 2 * w_tol <= w)%Q) -> label_ok s (Z.of_nat b)).
  { intros b w H C. destruct (REDP b w H) as (A & B & E & _). exists b. split; [reflexivity|]. split; [exact A|]. split; [lra|].
    intros H26 b'. specialize (C H26). specialize (MAX b'). unfold w_tol in *. lra. }
  split; [exact S1|]. split; [exact S2|]. split; [exact S3|]. split; [exact S4|].
  split; [|split; [|split; [|split; [|split]]]].
  - intros b. rewrite AS. destruct (existsb (Nat.eqb b) (nat_sort cur)) eqn:E; [reflexivity|]. rewrite SC. now apply EXF.
  - intros b. rewrite AW. destruct (existsb (Nat.eqb b) (nat_sort cur)) eqn:E; [reflexivity|].
    destruct (nth b wm0 false) eqn:E2; [|reflexivity]. exfalso. apply WM, IN, existsb_nat in E2. congruence.
  - intros b. rewrite AC. destruct (existsb (Nat.eqb b) (nat_sort cur)) eqn:E; [rewrite SC; reflexivity|]. rewrite (EXF b E). ring.
  - intros b. rewrite AV. destruct (existsb (Nat.eqb b) (nat_sort cur)) eqn:E; [rewrite SC; reflexivity|]. rewrite (EXF b E). ring.
  - split; [exact CG|]. split.
    + intros l w H. apply CI in H as (w0 & H & _). apply REDP in H as (_ & A & B & _). lra.
    + intros [U1 U2] b. destruct (CL26 (L26 U2)) as [TP ->]. rewrite WR.
      assert (T1 : (e_tot e == 1)%Q).
      { rewrite TOT, <- OK3. apply qsum_map_ext. intros x _. destruct (Qltb_spec (s x) w_cut) as [L|L]; [|reflexivity].
        destruct (Qlt_le_dec 0 (s x)) as [P|P]; [apply U1 in P; lra|]. specialize (OK1 x). lra. }
      rewrite T1. destruct (Qltb_spec (s b) w_cut) as [L|L]; [|field].
      destruct (Qlt_le_dec 0 (s b)) as [P|P]; [apply U1 in P; lra|]. specialize (OK1 b). assert (S0 : (s b == 0)%Q) by lra. now rewrite S0.
  - destruct BLP as (l & EL & IL). unfold o. destruct (e_tied e); cbn [negb].
    + destruct (tie_loop_spec charge (e_bw e) ap (e_c e) red (-1)%Q (e_bl e)) as [[E (b & w & H & Z0)]|(r & E & H)].
      * left. split; [exact E|]. exists b. split; [|exact Z0]. apply CI in H as (w0 & H & _). apply REDP in H as (_ & A & B & _). lra.
      * right. exists r. split; [exact E|]. destruct H as [->|(b & w & H & -> & Lw)].
        -- rewrite EL. apply (LOK l (e_bw e) IL). intros _. pose proof w_tol_pos. lra.
        -- destruct (CI _ _ H) as (w0 & H0 & HW). apply (LOK b w0 H0). intros H26. specialize (HW (L26 H26)).
           destruct (CL26 (L26 H26)) as [TP _]. destruct (REDP _ _ H0) as (_ & WP & WS & _).
           assert (W1 : (w <= 1)%Q).
           { destruct CG as [_ GP GS]. rewrite <- GS. apply qsum_ge_elem.
             - intros x Hx. apply in_map_iff in Hx as ([l' w'] & <- & Hx). apply GP in Hx. cbn [snd]. lra.
             - apply in_map_iff. now exists (b, w). }
           assert (EQ : (w0 == w * e_tot e)%Q) by (rewrite HW; field; lra).
           assert (0 < w)%Q by (destruct CG as [_ GP _]; now apply GP in H).
           assert (w * (1 - e_tot e) <= 1 * w_tol)%Q; [|rewrite EQ; lra].
           apply Qle_trans with (w * w_tol)%Q; [apply Qmult_le_l; lra|]. apply Qmult_le_compat_r; [exact W1|pose proof w_tol_pos; lra].
    + right. exists (e_bl e). split; [reflexivity|]. rewrite EL. apply (LOK l (e_bw e) IL). intros _. pose proof w_tol_pos. lra.
Qed.

Definition positive_charge : Prop := forall v, In v order -> (0 < chg v)%Q.

Record edge_inv (pre : list nat) (sh : nat -> nat -> Q) (st : pst) : Prop := {
  e_len : length (p_lab st) = N /\ length (p_c st) = K /\ length (p_v st) = K /\ length (p_ap st) = K /\
          length (p_sc st) = K /\ length (p_wm st) = K /\ length (p_all st) = length pre;
  e_zero : zeros (p_sc st) /\ (forall b, nth b (p_wm st) false = false);
  e_old : forall v, ~ In v pre -> lab_at (p_lab st) v = lab_at lab1 v;
  e_chg : forall b, (nth b (p_c st) 0 == nth b (w_chg W) 0 + qsum (map (fun v => chg v * sh v b) pre))%Q;
  e_vol : forall b, (nth b (p_v st) 0 == nth b (w_vol W) 0 + qsum (map (fun v => sh v b) pre))%Q;
  e_share : forall v, In v pre -> ok_share (sh v);
  e_rel : forall i v, nth_error pre i = Some v -> exists red, nth_error (p_all st) i = Some red /\ rel red (sh v);
  e_supp : forall v b, In v pre -> (0 < sh v b)%Q -> exists n, uphill v n /\ (0 < full sh n b)%Q;
  e_int : forall v b, In v pre -> (forall n, uphill v n -> (full sh n b == 1)%Q) -> (sh v b == 1)%Q;
  e_ideal : forall v b, In v pre -> (forall n, In n edges -> uphill v n -> untrunc (sh n)) ->
    ((forall n a, In (n, a) (vor v) -> (ref n <= ref v)%Q) -> (sh v b == full sh (best v) b)%Q) /\
    ((exists n a, In (n, a) (vor v) /\ (ref v < ref n)%Q) -> no_clash v -> (sh v b == inherited ref vor (full sh) v b)%Q);
  e_lab : forall v, In v pre -> label_ok (sh v) (lab_at (p_lab st) v);
  e_pos : positive_charge -> forall b, (0 <= nth b (p_c st) 0)%Q
}.

Lemma qsum_zero_pos (s : nat -> Q) (l : list nat) : (forall b, 0 <= s b)%Q -> (qsum (map s l) <= 0)%Q -> forall b, In b l -> (s b == 0)%Q.
Proof.
  intros P Z0 b Hb. assert (s b <= qsum (map s l))%Q.
  { apply qsum_ge_elem; [|now apply in_map]. intros x Hx. apply in_map_iff in Hx as (y & <- & _). apply P. }
  specialize (P b). lra.
Qed.

Lemma share_one s b b' : ok_share s -> (s b == 1)%Q -> b' <> b -> (s b' == 0)%Q.
Proof.
  intros (P & R & T) H NE. destruct (Nat.lt_ge_cases b' K) as [L|L]; [|now apply R].
  destruct (Nat.lt_ge_cases b K) as [Lb|Lb]; [|rewrite (R b Lb) in H; discriminate].
  destruct (in_split b (seq 0 K)) as (l1 & l2 & E); [apply in_seq; lia|].
  assert (Z0 : (qsum (map s (l1 ++ l2)) <= 0)%Q).
  { rewrite E in T. rewrite !map_app, !qsum_app in *. cbn [map] in T. rewrite qsum_cons in T. lra. }
  apply (qsum_zero_pos s (l1 ++ l2) P Z0). assert (I : In b' (seq 0 K)) by (apply in_seq; lia). rewrite E in I.
  apply in_app_or in I as [I|[I|I]]; [|congruence|]; apply in_or_app; auto.
Qed.

Lemma good_red_one red b : good_red red -> (forall l w, In (l, w) red -> l = b) -> (wof red b == 1)%Q.
Proof.
  intros G H. destruct G as [_ _ GS]. rewrite <- GS. unfold wof. apply qsum_map_ext. intros [l w] I. cbn [fst snd].
  rewrite (H l w I), Nat.eqb_refl. reflexivity.
Qed.

Lemma qsum_pos_elem {A} (f : A -> Q) l : (forall x, In x l -> 0 <= f x)%Q -> (0 < qsum (map f l))%Q -> exists x, In x l /\ (0 < f x)%Q.
Proof.
  intros P H. destruct (existsb (fun x => Qltb 0 (f x)) l) eqn:E.
  - apply existsb_exists in E as (x & I & E). apply Qltb_lt in E. eauto.
  - exfalso. assert (qsum (map f l) <= qsum (map (fun _ => 0%Q) l))%Q.
    { apply qsum_le. intros x I. destruct (Qltb_spec 0 (f x)) as [L|L]; [|exact L]. exfalso.
      apply Bool.diff_true_false. rewrite <- E. symmetry. apply existsb_exists. exists x. split; [exact I|now apply Qltb_lt]. }
    rewrite qsum_map_zero in H0. lra.
Qed.

Lemma edge_step_inv pre v post sh st : edges = pre ++ v :: post -> edge_inv pre sh st ->
  let o := edge_step chg edges st v (flux_row ref vor best stale lab1 v) in
  (o = Raised /\ ~ positive_charge) \/
  (exists st' sh', o = Done st' /\ edge_inv (pre ++ [v]) sh' st').
Proof.
  intros EE [(N1 & N2 & N3 & N4 & N5 & N6 & N7) [Z1 Z2] OLD CH VO SHR REL SUPP EINT IDEAL LAB POS] o.
  destruct edges_spec as (ES1 & ES2 & END & ESS).
  assert (Hve : In v edges) by (rewrite EE; apply in_or_app; right; now left).
  destruct (ES1 v Hve) as (Hv & Mv & _).
  assert (NVP : ~ In v pre).
  { rewrite EE in END. apply NoDup_remove_2 in END. intros H. apply END, in_or_app. now left. }
  destruct (flux_row_spec v Hv Mv) as (F1 & F2 & F3 & F4).
  set (row := flux_row ref vor best stale lab1 v) in *.
  (* uphill edge voxels have been processed *)
  assert (UPE : forall n, uphill v n -> In n edges -> In n pre).
  { intros n Un In_. destruct (Hup v n Hv Mv Un) as [_ L]. rewrite EE in ESS, In_. eapply sorted_before; eauto. }
  assert (ENT : forall n, uphill v n -> entry_ok (p_all st) (code n) /\
     (forall b, (0 < cw (p_all st) (code n) b)%Q -> (0 < full sh n b)%Q) /\
     (forall b, (full sh n b == 1)%Q -> (cw (p_all st) (code n) b == 1)%Q) /\
     ((In n edges -> untrunc (sh n)) -> forall b, (cw (p_all st) (code n) b == full sh n b)%Q)).
  { intros n Un. destruct (Hup v n Hv Mv Un) as [On _]. destruct (in_dec Nat.eq_dec n edges) as [I|I].
    - assert (IP := UPE n Un I). rewrite (code_edge n I).
      destruct (index_of_pre n pre (v :: post) IP) as (e & Ee & Le). rewrite <- EE in Ee.
      assert (Ne : nth_error pre e = Some n).
      { apply index_of_some in Ee. rewrite EE, nth_error_app1 in Ee by exact Le. exact Ee. }
      destruct (REL e n Ne) as (red & Er & RL). destruct RL as (G & R1 & R2).
      assert (CW : forall b, cw (p_all st) (- Z.of_nat n - 1) b = wof red b).
      { intros b. unfold cw. replace (0 <=? - Z.of_nat n - 1) with false by lia. replace (Z.to_nat (- (- Z.of_nat n - 1) - 1)) with n by lia.
        now rewrite Ee, (nth_error_nth _ _ _ Er). }
      assert (FU : forall b, full sh n b = sh n b) by (intros b; unfold full; destruct (in_dec Nat.eq_dec n edges); [reflexivity|contradiction]).
      split; [right; exists n, e, red; auto|]. split; [|split].
      + intros b H. rewrite CW in H. rewrite FU. apply wof_pos_in in H as (w & H). now apply R1 in H.
      + intros b H. rewrite FU in H. rewrite CW. apply good_red_one; [exact G|]. intros l w Hl.
        destruct (Nat.eq_dec l b) as [|NE]; [assumption|]. apply R1 in Hl. rewrite (share_one (sh n) b l) in Hl; auto. lra.
      + intros U b. rewrite CW, FU. now apply R2, U.
    - destruct (code_basin n On I) as (b0 & -> & L0 & E0).
      assert (CW : forall b, cw (p_all st) (Z.of_nat b0) b = if Nat.eqb b0 b then 1%Q else 0%Q).
      { intros b. unfold cw. replace (0 <=? Z.of_nat b0) with true by lia. now rewrite Nat2Z.id. }
      assert (FU : forall b, full sh n b = if Nat.eqb b0 b then 1%Q else 0%Q).
      { intros b. unfold full. destruct (in_dec Nat.eq_dec n edges); [contradiction|]. rewrite E0.
        destruct (Nat.eqb_spec b0 b) as [->|NE]; [now rewrite Z.eqb_refl|]. now replace (Z.of_nat b0 =? Z.of_nat b) with false by lia. }
      split; [left; eauto|]. split; [|split]; intros; rewrite ?CW, ?FU in *; auto; reflexivity. }
  destruct (contribs_spec (p_all st) row) as (cs & EC & CI & CW).
  { intros f z H. destruct (F2 f z H) as (P & n & Un & ->). split; [exact P|]. now apply ENT. }
  set (s := wof cs).
  assert (OK : ok_share s).
  { split; [|split].
    - intros b. apply wof_nonneg. intros x w H. apply CI in H. lra.
    - intros b Hb. apply wof_out. intros w H. apply CI in H. lia.
    - unfold s. rewrite (qsum_map_ext _ _ _ (fun b _ => CW b)).
      rewrite (qsum_swap (fun b (fz : Q * Z) => (fst fz * cw (p_all st) (snd fz) b)%Q)).
      rewrite (qsum_map_ext _ (fun fz : Q * Z => fst fz)).
      + exact F1.
      + intros [f z] H. cbn [fst snd]. rewrite qsum_map_scale. destruct (F2 f z H) as (P & n & Un & ->).
        rewrite cw_total by now apply ENT. ring. }
  pose proof (scratch_spec cs ltac:(intros l x H; now apply CI in H) (p_sc st) (p_wm st) [] N5 N6 ltac:(constructor)
     ltac:(intros b; rewrite Z2; cbn; split; [discriminate|tauto]) ltac:(intros b [])) as SS.
  unfold o, edge_step. rewrite EC. cbn [obind].
  destruct (fold_left scratch_step cs (p_sc st, p_wm st, [])) as [[sc wm] cur].
  destruct SS as (S1 & S2 & S3 & S4 & S5 & S6 & S7).
  assert (SC : forall b, (nth b sc 0 == s b)%Q) by (intros b; rewrite S6, (Z1 b); unfold s; ring).
  assert (CUR : forall b, In b cur <-> (0 < s b)%Q).
  { intros b. rewrite S7. cbn. split.
    - intros [[]|H]. apply in_map_iff in H as ([l x] & <- & H). cbn [fst]. destruct (CI l x H) as [_ P]. unfold s.
      destruct (in_split _ _ H) as (c1 & c2 & Ec). rewrite Ec, wof_app, wof_cons, Nat.eqb_refl.
      assert (0 <= wof c1 l)%Q by (apply wof_nonneg; intros y w Hy; assert (In (y, w) cs) by (rewrite Ec; apply in_or_app; now left); apply CI in H0; lra).
      assert (0 <= wof c2 l)%Q by (apply wof_nonneg; intros y w Hy; assert (In (y, w) cs) by (rewrite Ec; apply in_or_app; right; now right); apply CI in H1; lra).
      lra.
    - intros H. right. apply wof_pos_in in H as (w & H). apply in_map_iff. now exists (b, w). }
  set (e := fold_left (assign_step (chg v)) (nat_sort cur) _).
  destruct (distribute (chg v) sc wm (p_c st) (p_v st) cur s e (p_ap st) S1 S2 N2 N3 S3 S5 S4 OK SC CUR eq_refl)
    as (D1 & D2 & D3 & D4 & D5 & D6 & D7 & D8 & D9 & D10).
  set (red := cap (e_tot e) (e_red e)) in *.
  destruct D10 as [[-> (b & Pb & Zb)]|(z & -> & LZ)].
  - left. split; [reflexivity|]. intros PC. rewrite D7 in Zb. specialize (POS PC b). specialize (PC v Hv).
    assert (0 < chg v * s b)%Q by now apply Qmult_lt_0_compat. lra.
  - right. cbn [obind]. destruct LZ as (zb & -> & Lz & LZ). rewrite np_idx_pos by lia. rewrite Nat2Z.id.
    set (sh' := fun u => if Nat.eqb u v then s else sh u).
    assert (SV : sh' v = s) by (unfold sh'; now rewrite Nat.eqb_refl).
    assert (SO : forall u, u <> v -> sh' u = sh u) by (intros u Hu; unfold sh'; apply Nat.eqb_neq in Hu; now rewrite Hu).
    assert (SP : forall u, In u pre -> sh' u = sh u) by (intros u Hu; apply SO; congruence).
    assert (FO : forall n b, n <> v -> full sh' n b = full sh n b) by (intros n b Hn; unfold full; now rewrite (SO n Hn)).
    assert (FU : forall u n b, (u = v \/ In u pre) -> uphill u n -> full sh' n b = full sh n b).
    { intros u n b Hu Un. unfold full. destruct (in_dec Nat.eq_dec n edges) as [I|I]; [|reflexivity]. rewrite SO; [reflexivity|].
      intros ->. destruct Hu as [->|Hu].
      - destruct (Hup v v Hv Mv Un) as [_ L]. lra.
      - assert (Hue : In u edges) by (rewrite EE; apply in_or_app; now left). destruct (ES1 u Hue) as (Ou & Mu & _).
        destruct (Hup u v Ou Mu Un) as [_ L]. assert (ref v <= ref u)%Q; [|lra]. rewrite EE in ESS. eapply sorted_le; eauto. }
    assert (HL : (v < length (p_lab st))%nat) by (rewrite N1; now apply Hlt).
    exists {| p_lab := upd (p_lab st) v (Z.of_nat zb); p_c := e_c e; p_v := e_v e; p_ap := add_at (p_ap st) zb (chg v);
              p_sc := e_sc e; p_wm := e_wm e; p_all := p_all st ++ [red] |}, sh'.
    split; [reflexivity|].
    assert (SBN : forall b, (s b == qsum (map (fun fz => fst fz * cw (p_all st) (snd fz) b) row))%Q) by (intros b; apply CW).
    constructor; cbn [p_lab p_c p_v p_ap p_sc p_wm p_all].
    + rewrite upd_length, add_at_length, !app_length. cbn. lia.
    + split; [exact D5|exact D6].
    + intros u Hu. rewrite lab_at_upd by exact HL. destruct (Nat.eqb_spec v u) as [->|NE].
      * exfalso. apply Hu, in_or_app. right. now left.
      * apply OLD. intros H. apply Hu, in_or_app. now left.
    + intros b. rewrite D7, CH, map_app. cbn [map]. rewrite qsum_snoc, SV.
      rewrite (qsum_map_ext (fun u => chg u * sh' u b)%Q (fun u => chg u * sh u b)%Q) by (intros u Hu; rewrite SP by exact Hu; reflexivity). ring.
    + intros b. rewrite D8, VO, map_app. cbn [map]. rewrite qsum_snoc, SV.
      rewrite (qsum_map_ext (fun u => sh' u b)%Q (fun u => sh u b)%Q) by (intros u Hu; rewrite SP by exact Hu; reflexivity). ring.
    + intros u Hu. apply in_app_or in Hu as [Hu|[<-|[]]]; [rewrite SP by exact Hu; auto|rewrite SV; exact OK].
    + intros i u Hi. destruct (Nat.lt_ge_cases i (length pre)) as [L|L].
      * rewrite nth_error_app1 in Hi by exact L. destruct (REL i u Hi) as (r & E1 & E2). exists r.
        rewrite nth_error_app1 by lia. split; [exact E1|]. rewrite SP; [exact E2|]. eapply nth_error_In; eauto.
      * rewrite nth_error_app2 in Hi by exact L. destruct (i - length pre)%nat as [|k] eqn:Ek; [|destruct k; discriminate].
        injection Hi as <-. exists red. rewrite nth_error_app2 by lia. rewrite N7, Ek. split; [reflexivity|]. rewrite SV. exact D9.
    + intros u b Hu P. apply in_app_or in Hu as [Hu|[<-|[]]].
      * rewrite SP in P by exact Hu. destruct (SUPP u b Hu P) as (n & Un & Pn). exists n. split; [exact Un|]. rewrite (FU u) by auto. exact Pn.
      * rewrite SV, SBN in P. apply qsum_pos_elem in P as ([f z] & I & P).
        -- cbn [fst snd] in P. destruct (F2 f z I) as (Pf & n & Un & ->). exists n. split; [exact Un|]. rewrite (FU v) by auto.
           apply ENT; [exact Un|]. destruct (Qlt_le_dec 0 (cw (p_all st) (code n) b)) as [|C]; [assumption|]. exfalso.
           assert (f * cw (p_all st) (code n) b <= 0)%Q; [|lra]. setoid_replace 0%Q with (f * 0)%Q by ring. apply Qmult_le_l; auto.
        -- intros [f z] I'. cbn [fst snd]. destruct (F2 f z I') as (Pf & n & Un & ->).
           apply Qmult_le_0_compat; [lra|]. apply cw_nonneg. now apply ENT.
    + intros u b Hu H. apply in_app_or in Hu as [Hu|[<-|[]]].
      * rewrite SP by exact Hu. apply EINT; [exact Hu|]. intros n Un. rewrite <- (FU u n b) by auto. auto.
      * rewrite SV, SBN, (qsum_map_ext _ (fun fz : Q * Z => fst fz)); [exact F1|]. intros [f z] I. cbn [fst snd].
        destruct (F2 f z I) as (Pf & n & Un & ->). destruct (ENT n Un) as (_ & _ & E1 & _). rewrite E1; [ring|].
        rewrite <- (FU v n b) by auto. auto.
    + intros u b Hu U. apply in_app_or in Hu as [Hu|[<-|[]]].
      * rewrite SP by exact Hu. destruct (IDEAL u b Hu) as [I1 I2].
        { intros n In_ Un. assert (n <> v).
          { intros ->. assert (Hue : In u edges) by (rewrite EE; apply in_or_app; now left). destruct (ES1 u Hue) as (Ou & Mu & _).
            destruct (Hup u v Ou Mu Un) as [_ L]. assert (ref v <= ref u)%Q; [|lra]. rewrite EE in ESS. eapply sorted_le; eauto. }
          rewrite <- SO by assumption. auto. }
        split.
        -- intros NH. rewrite (I1 NH). rewrite (FU u (best u)); [reflexivity|now right|]. right. auto.
        -- intros EX NC. rewrite (I2 EX NC). unfold inherited. apply Qmult_inj_r_ext. apply qsum_map_ext. intros [n a] I. cbn [fst snd].
           destruct (Qltb_spec (ref u) (ref n)) as [L|L]; [|reflexivity].
           rewrite (FU u n b); [reflexivity|now right|]. left. exists a. auto.
      * rewrite SV. assert (UN : forall n, uphill v n -> In n edges -> untrunc (sh n)).
        { intros n Un In_. specialize (U n In_ Un). rewrite SO in U; [exact U|]. intros ->. destruct (Hup v v Hv Mv Un) as [_ L]. lra. }
        split.
        -- intros NH. rewrite SBN. rewrite (F3 NH (fun z => cw (p_all st) z b)).
           assert (UB : uphill v (best v)) by (right; auto). rewrite (FU v (best v)) by auto. apply ENT; [exact UB|]. now apply UN.
        -- intros EX NC. rewrite SBN. rewrite (F4 EX NC (fun z => cw (p_all st) z b)). unfold inherited, fsum. apply Qmult_inj_r_ext.
           apply qsum_map_ext. intros [n a] I. cbn [fst snd]. destruct (Qltb_spec (ref v) (ref n)) as [L|L]; [|reflexivity].
           assert (Un : uphill v n) by (left; exists a; auto). rewrite (FU v n b) by auto. unfold flux. cbn [fst snd].
           destruct (ENT n Un) as (_ & _ & _ & E1). rewrite E1; [reflexivity|]. now apply UN.
    + intros u Hu. rewrite lab_at_upd by exact HL. apply in_app_or in Hu as [Hu|[<-|[]]].
      * rewrite SP by exact Hu. destruct (Nat.eqb_spec v u) as [->|NE]; [contradiction|auto].
      * rewrite SV, Nat.eqb_refl. exists zb. auto.
    + intros PC b. rewrite D7. specialize (POS PC b). specialize (PC v Hv). destruct OK as (OKn & _).
      assert (0 <= chg v * s b)%Q by (apply Qmult_le_0_compat; [lra|apply OKn]). lra.
Qed.

Lemma edge_phase_inv post : forall pre sh st, edges = pre ++ post -> edge_inv pre sh st ->
  let o := edge_phase chg edges (map (fun v => (v, flux_row ref vor best stale lab1 v)) post) st in
  (o = Raised /\ ~ positive_charge) \/ (exists st' sh', o = Done st' /\ edge_inv edges sh' st').
Proof.
  induction post as [|v t IH]; intros pre sh st E I; cbn [map edge_phase].
  - right. exists st, sh. split; [reflexivity|]. rewrite app_nil_r in E. now rewrite E.
  - destruct (edge_step_inv pre v t sh st E I) as [[-> NP]|(st' & sh' & -> & I')]; cbn [obind].
    + now left.
    + apply (IH (pre ++ [v]) sh'); [now rewrite <- app_assoc|exact I'].
Qed.

Lemma interior_cnt : exists cnt, interior_inv order W cnt /\ Permutation order (cnt ++ edges).
Proof.
  destruct interior_phase_inv as (cnt & I). exists cnt. split; [exact I|]. destruct I as [IC II IA IR IE [IES IEN] INT].
  assert (D : forall v, In v cnt <-> In v order /\ ~ In v edges).
  { intros v. rewrite II. split; [intros [H|H]; [exact H|]|auto]. apply IA in H as (r & Er & Or & Mr & _).
    assert (r = v) by lia. subst r. split; [exact Or|]. intros H. apply IE in H as [_ H]. congruence. }
  apply NoDup_Permutation; [exact Hnd| |].
  - assert (G : forall l, NoDup l -> (forall v, In v l -> ~ In v edges) -> NoDup (l ++ edges)).
    { induction l as [|x t IH]; intros ND H; [exact IEN|]. inversion ND; subst. cbn. constructor.
      - intros X. apply in_app_or in X as [X|X]; [contradiction|]. apply (H x); [now left|exact X].
      - apply IH; [assumption|]. intros; apply H; now right. }
    apply G; [apply (k_nd _ _ _ _ IC)|]. intros v Hv. now apply D.
  - intros v. rewrite in_app_iff, D. destruct (in_dec Nat.eq_dec v edges) as [H|H]; [|tauto].
    split; [auto|]. intros _. now apply IE.
Qed.

Theorem weight_correct :
  let o := weight_assign ref chg mask vor best maxidx order lab0 in
  (o = Raised /\ ~ positive_charge) \/
  exists lab charges volumes share, o = Done (lab, charges, volumes) /\ length lab = N /\
    weight_result ref chg 1 top vor bestr order K (fun v c => c = basin v) share (nth_error lab) charges volumes /\
    (forall v, (v < N)%nat -> ~ In v order -> nth_error lab v = Some (-1)) /\
    ((forall v n c, In v order -> mask v = false -> mixed ref vor bestr share v -> uphill v n -> (share n c == 1)%Q ->
        Z.of_nat c <> stale) ->
     (forall v n, In v order -> mask v = false -> mixed ref vor bestr share v -> uphill v n -> stale <> - Z.of_nat n - 1) ->
     nothing_dropped order K share ->
      ideal_shares ref top vor bestr order (fun v c => c = basin v) share).
Proof.
  intros o. destruct interior_cnt as (cnt & I & PERM). pose proof I as [IC II IA IR IE [IES IEN] INT].
  pose proof (k_len _ _ _ _ IC) as (L1 & L2 & L3). destruct edges_spec as (ES1 & ES2 & END & ESS).
  set (st0 := {| p_lab := lab1; p_c := w_chg W; p_v := w_vol W; p_ap := w_chg W;
       p_sc := repeat 0%Q K; p_wm := repeat false K; p_all := [] |}).
  assert (OUT : forall b, (K <= b)%nat -> nth b (w_chg W) 0%Q = 0%Q) by (intros b Hb; apply nth_overflow; lia).
  assert (I0 : edge_inv [] (fun _ _ => 0%Q) st0).
  { constructor; cbn [p_lab p_c p_v p_ap p_sc p_wm p_all st0]; try (intros; contradiction).
    - rewrite !repeat_length. cbn. auto 10.
    - split; [intros b; rewrite nth_repeat; reflexivity|]. intros b. apply nth_repeat.
    - reflexivity.
    - intros b. cbn. ring.
    - intros b. cbn. ring.
    - intros i v H. now destruct i.
    - intros PC b. destruct (Nat.lt_ge_cases b K) as [H|H]; [|rewrite (OUT b H); lra].
      rewrite (k_chg _ _ _ _ IC b H). apply qsum_nonneg. intros x Hx. apply in_map_iff in Hx as (v & <- & Hv).
      destruct (lab_at lab1 v =? Z.of_nat b); [|lra]. assert (0 < chg v)%Q by (apply PC, (k_ord _ _ _ _ IC), Hv). lra. }
  unfold o, weight_assign. destruct (edge_phase_inv edges [] _ st0 eq_refl I0) as [[E NP]|(st & sh & E & J)].
  { left. unfold st0 in E. rewrite E. now split. }
  right. unfold st0 in E. rewrite E. cbn [obind]. exists (p_lab st), (p_c st), (p_v st), (full sh).
  destruct J as [(N1 & N2 & N3 & _) _ OLD CH VO SHR REL SUPP EINT IDEAL LAB POS].
  assert (FE : forall v b, In v edges -> full sh v b = sh v b) by (intros v b H; unfold full; destruct (in_dec Nat.eq_dec v edges); [reflexivity|contradiction]).
  assert (FN : forall v b, ~ In v edges -> full sh v b = (if (lab_at lab1 v =? Z.of_nat b)%Z then 1 else 0)%Q)
    by (intros v b H; unfold full; destruct (in_dec Nat.eq_dec v edges); [contradiction|reflexivity]).
  assert (OKF : forall v, In v order -> ok_share (full sh v)).
  { intros v Hv. destruct (in_dec Nat.eq_dec v edges) as [H|H].
    - destruct (SHR v H) as (A & B & C). split; [|split]; intros; rewrite ?FE by exact H; auto.
      rewrite (qsum_map_ext _ (sh v)) by (intros; rewrite FE by exact H; reflexivity). exact C.
    - destruct (ES2 v Hv H) as (b0 & E0 & L0 & _). split; [|split].
      + intros b. rewrite FN by exact H. destruct (_ =? _); lra.
      + intros b Hb. rewrite FN, E0 by exact H. replace (Z.of_nat b0 =? Z.of_nat b) with false by lia. reflexivity.
      + rewrite (qsum_map_ext _ (fun b => if Nat.eqb b0 b then 1%Q else 0%Q)).
        * now apply qsum_indicator.
        * intros b _. rewrite FN, E0 by exact H. destruct (Nat.eqb_spec b0 b) as [->|NE]; [now rewrite Z.eqb_refl|].
          now replace (Z.of_nat b0 =? Z.of_nat b) with false by lia. }
  assert (NCE : forall v, In v cnt -> ~ In v edges).
  { intros v Hv He. assert (ND : NoDup (cnt ++ edges)) by (eapply Permutation_NoDup; eauto). clear - ND Hv He.
    induction cnt as [|x t IH]; [contradiction|]. inversion ND; subst. destruct Hv as [->|Hv]; [|auto]. apply H1, in_or_app. now right. }
  split; [reflexivity|]. split; [exact N1|]. split.
  - constructor.
    + intros v b Hv. apply OKF; assumption.
    + intros v b Hv. apply OKF; assumption.
    + intros v Hv. apply OKF; assumption.
    + auto.
    + intros b Hb. rewrite CH. rewrite (qsum_perm _ _ (Permutation_map _ PERM)). rewrite map_app, qsum_app.
      rewrite (k_chg _ _ _ _ IC b Hb). apply Qplus_comp; apply qsum_map_ext; intros v Hv.
      * rewrite FN by auto. destruct (_ =? _); ring.
      * rewrite FE by exact Hv. reflexivity.
    + intros b Hb. rewrite VO. rewrite (qsum_perm _ _ (Permutation_map _ PERM)). rewrite map_app, qsum_app.
      rewrite (k_vol _ _ _ _ IC b Hb). apply Qplus_comp; apply qsum_map_ext; intros v Hv.
      * rewrite FN by auto. ring.
      * rewrite FE by exact Hv. ring.
    + intros v c b Hv Mv Ec. subst c. assert (NE : ~ In v edges) by (intros H; apply ES1 in H; destruct H as (_ & H & _); congruence).
      destruct (ES2 v Hv NE) as (b0 & E0 & L0 & B0). rewrite (B0 Mv) in E0. rewrite FN, E0 by exact NE.
      destruct (Nat.eqb_spec b (basin v)) as [->|D]; [now rewrite Z.eqb_refl|]. now replace (Z.of_nat (basin v) =? Z.of_nat b) with false by lia.
    + intros v b Hv Mv' P. assert (Mv : mask v = false) by (destruct (mask v); congruence). clear Mv'. destruct (in_dec Nat.eq_dec v edges) as [H|H].
      * rewrite FE in P by exact H. destruct (SUPP v b H P) as (n & Un & Pn). exists n. split; [exact Un|].
        split; [|exact Pn]. now apply (Hup v n Hv Mv).
      * rewrite FN in P by exact H. destruct (lab_at lab1 v =? Z.of_nat b) eqn:E0; [|lra].
        assert (EX : exists n, uphill v n).
        { destruct (existsb (fun na => Qltb (ref v) (ref (fst na))) (vor v)) eqn:EB.
          - apply existsb_exists in EB as ([n a] & HI & HL). cbn [fst] in HL. apply Qltb_lt in HL. exists n. left. eauto.
          - exists (best v). right. split; [|reflexivity]. intros m a HI. destruct (Qltb_spec (ref v) (ref m)) as [HL|HL]; [|exact HL].
            exfalso. apply Bool.diff_true_false. rewrite <- EB. symmetry. apply existsb_exists. exists (m, a). split; [exact HI|now apply Qltb_lt]. }
        destruct EX as (n & Un). exists n. destruct (INT v Hv H Mv n Un) as (A & B). split; [exact Un|]. split; [apply (k_ord _ _ _ _ IC), B|].
        rewrite FN by now apply NCE. rewrite A, E0. lra.
    + intros v b Hv Mv' A. assert (Mv : mask v = false) by (destruct (mask v); congruence). clear Mv'. destruct (in_dec Nat.eq_dec v edges) as [H|H].
      * rewrite FE by exact H. apply EINT; assumption.
      * destruct (existsb (fun na => Qltb (ref v) (ref (fst na))) (vor v)) eqn:EB.
        -- apply existsb_exists in EB as ([n a] & HI & HL). cbn [fst] in HL. apply Qltb_lt in HL.
           assert (Un : uphill v n) by (left; eauto). destruct (INT v Hv H Mv n Un) as (C & D). specialize (A n Un).
           rewrite FN in A by now apply NCE. rewrite FN by exact H. now rewrite <- C.
        -- assert (Un : uphill v (best v)).
           { right. split; [|reflexivity]. intros m a HI. destruct (Qltb_spec (ref v) (ref m)) as [HL|HL]; [|exact HL].
             exfalso. apply Bool.diff_true_false. rewrite <- EB. symmetry. apply existsb_exists. exists (m, a). split; [exact HI|now apply Qltb_lt]. }
           destruct (INT v Hv H Mv _ Un) as (C & D). specialize (A _ Un).
           rewrite FN in A by now apply NCE. rewrite FN by exact H. now rewrite <- C.
    + intros v Hv. assert (LT : (v < length (p_lab st))%nat) by (rewrite N1; auto).
      destruct (in_dec Nat.eq_dec v edges) as [H|H].
      * destruct (LAB v H) as (b & Eb & Lb & Pb & Mb). exists b. split; [|split; [exact Lb|split]].
        -- rewrite <- Eb. unfold lab_at. now apply nth_error_nth'.
        -- now rewrite FE.
        -- intros Le b'. rewrite !FE by exact H. apply Mb. unfold npos. unfold sharing in Le.
           rewrite (filter_ext_in _ (fun b => Qltb 0 (sh v b))) in Le; [exact Le|]. intros x _. now rewrite FE.
      * destruct (ES2 v Hv H) as (b & Eb & Lb & _). exists b. split; [|split; [exact Lb|split]].
        -- rewrite <- Eb, <- (OLD v H). unfold lab_at. now apply nth_error_nth'.
        -- rewrite FN, Eb, Z.eqb_refl by exact H. lra.
        -- intros _ b'. rewrite !FN, Eb, Z.eqb_refl by exact H. destruct (_ =? _); lra.
  - split.
    intros v Lv Hv. assert (NE : ~ In v edges) by (intros H; now apply ES1 in H).
    { assert (E0 : lab_at (p_lab st) v = -1).
      { rewrite (OLD v NE). rewrite (k_old _ _ _ _ IC).
        - apply lab0_other. right. exact Hv.
        - intros H. apply Hv, (k_ord _ _ _ _ IC), H. }
      rewrite <- E0. unfold lab_at. apply nth_error_nth'. now rewrite N1. }
    intros NC NC0 UT.
    assert (OKN : forall v n, In v order -> mask v = false -> uphill v n -> ok_share (full sh n)).
    { intros v n Hv Mv Un. apply OKF. now apply (Hup v n). }
    assert (MIX : forall v, In v order -> mask v = false -> no_clash v \/ exists c, forall n, uphill v n -> (full sh n c == 1)%Q).
    { intros v Hv Mv.
      destruct (existsb (fun c => forallb (fun n => Qeq_bool (full sh n c) 1) (neighs v)) (seq 0 K)) eqn:EB.
      - right. apply existsb_exists in EB as (c & _ & FB). rewrite forallb_forall in FB. exists c. intros n Un.
        apply Qeq_bool_iff, FB. now apply neighs_uphill.
      - left. assert (MX : mixed ref vor bestr (full sh) v).
        { intros (c & Hc). assert (LC : (c < K)%nat).
          { assert (NE : exists n, uphill v n).
            { destruct (neighs v) as [|n0 t0] eqn:EN; [apply neighs_nil in EN; congruence|]. exists n0. apply neighs_uphill; [exact Mv|]. rewrite EN. now left. }
            destruct NE as (n & Un). destruct (Nat.lt_ge_cases c K) as [|GE]; [assumption|exfalso].
            destruct (OKN v n Hv Mv Un) as (_ & R & _). specialize (R c GE). rewrite (Hc n Un) in R. discriminate. }
          assert (existsb (fun c => forallb (fun n => Qeq_bool (full sh n c) 1) (neighs v)) (seq 0 K) = true); [|congruence].
          apply existsb_exists. exists c. split; [apply in_seq; lia|]. apply forallb_forall. intros n Hn. apply Qeq_bool_iff, Hc. now apply neighs_uphill. }
        intros n Un. destruct (in_dec Nat.eq_dec n edges) as [In_|In_].
        + rewrite (code_edge n In_). intros E0. now apply (NC0 v n Hv Mv MX Un).
        + destruct (code_basin n (proj1 (Hup v n Hv Mv Un)) In_) as (b0 & -> & L0 & E0). apply (NC v n b0 Hv Mv MX Un).
          rewrite FN, E0, Z.eqb_refl by exact In_. reflexivity. }
    assert (PURE : forall v c b, In v order -> mask v = false -> (forall n, uphill v n -> (full sh n c == 1)%Q) -> (full sh v c == 1)%Q ->
      ((exists n a, In (n, a) (vor v) /\ (ref v < ref n)%Q) -> (full sh v b == inherited ref vor (full sh) v b)%Q) /\
      (uphill v (best v) -> (full sh v b == full sh (best v) b)%Q)).
    { intros v c b Hv Mv Hc Hvc. assert (SV : forall n, (n = v \/ uphill v n) -> (full sh n b == if Nat.eqb b c then 1 else 0)%Q).
      { intros n Hn. destruct (Nat.eqb_spec b c) as [->|NE]; [destruct Hn as [->|Hn]; auto|].
        apply (share_one (full sh n) c); [|destruct Hn as [->|Hn]; auto|exact NE]. destruct Hn as [->|Hn]; [now apply OKF|eauto]. }
      split.
      - intros (n0 & a0 & HI & HL). unfold inherited.
        rewrite (qsum_map_ext _ (fun na : nat * Q => (if Nat.eqb b c then 1 else 0) * (if Qltb (ref v) (ref (fst na)) then (ref (fst na) - ref v) * snd na else 0))%Q).
        + rewrite qsum_map_scale. fold (outflow ref vor v). rewrite (SV v) by now left. field.
          assert (0 < outflow ref vor v)%Q; [|lra].
          apply Qlt_le_trans with ((ref n0 - ref v) * a0)%Q.
          * apply Qmult_lt_0_compat; [lra|]. now apply (Halpha v n0).
          * unfold outflow. apply qsum_ge_elem.
            ** intros x Hx. apply in_map_iff in Hx as ([m a] & <- & Hm). cbn [fst snd]. destruct (Qltb_spec (ref v) (ref m)) as [L|L]; [|lra].
               apply Qmult_le_0_compat; [lra|]. apply Qlt_le_weak. now apply (Halpha v m).
            ** apply in_map_iff. exists (n0, a0). cbn [fst snd]. split; [|exact HI]. apply Qltb_lt in HL. now rewrite HL.
        + intros [m a] Hm. cbn [fst snd]. destruct (Qltb_spec (ref v) (ref m)) as [L|L]; [|ring].
          rewrite (SV m); [ring|]. right. left. eauto.
      - intros U. rewrite (SV v), (SV (best v)) by auto. reflexivity. }
    assert (UE : forall n, In n edges -> untrunc (sh n)).
    { intros n Hn. destruct (UT n) as (A & B); [now apply ES1|]. split.
      - intros b Pb. specialize (A b). rewrite FE in A by exact Hn. auto.
      - unfold npos, sharing in *. rewrite (filter_ext_in _ (fun b => Qltb 0 (sh n b))) in B; [exact B|]. intros x _. now rewrite FE. }
    constructor.
    + intros v c b Hv Mv Ec. subst c. assert (NE : ~ In v edges) by (intros H; apply ES1 in H; destruct H as (_ & H & _); congruence).
      destruct (ES2 v Hv NE) as (b0 & E0 & L0 & B0). rewrite (B0 Mv) in E0. rewrite FN, E0 by exact NE.
      destruct (Nat.eqb_spec b (basin v)) as [->|D]; [now rewrite Z.eqb_refl|]. now replace (Z.of_nat (basin v) =? Z.of_nat b) with false by lia.
    + intros v b Hv Mv' EX. assert (Mv : mask v = false) by (destruct (mask v); congruence). clear Mv'. destruct (in_dec Nat.eq_dec v edges) as [H|H].
      * destruct (MIX v Hv Mv) as [NCv|(c & Hc)]; [rewrite FE by exact H; apply IDEAL; auto|].
        apply (PURE v c b Hv Mv Hc); [|exact EX]. rewrite FE by exact H. now apply EINT.
      * destruct EX as (n0 & a0 & HI & HL). unfold inherited.
        set (c := (if (lab_at lab1 v =? Z.of_nat b)%Z then 1 else 0)%Q).
        rewrite (qsum_map_ext _ (fun na : nat * Q => c * (if Qltb (ref v) (ref (fst na)) then (ref (fst na) - ref v) * snd na else 0))%Q).
        -- rewrite qsum_map_scale. fold (outflow ref vor v). rewrite FN by exact H. fold c. field.
           assert (0 < outflow ref vor v)%Q; [|lra].
           apply Qlt_le_trans with ((ref n0 - ref v) * a0)%Q.
           ++ apply Qmult_lt_0_compat; [lra|]. now apply (Halpha v n0).
           ++ unfold outflow. apply qsum_ge_elem.
              ** intros x Hx. apply in_map_iff in Hx as ([m a] & <- & Hm). cbn [fst snd]. destruct (Qltb_spec (ref v) (ref m)) as [L|L]; [|lra].
                 apply Qmult_le_0_compat; [lra|]. apply Qlt_le_weak. now apply (Halpha v m).
              ** apply in_map_iff. exists (n0, a0). cbn [fst snd]. split; [|exact HI]. apply Qltb_lt in HL. now rewrite HL.
        -- intros [m a] Hm. cbn [fst snd]. destruct (Qltb_spec (ref v) (ref m)) as [L|L]; [|ring].
           assert (Um : uphill v m) by (left; eauto). destruct (INT v Hv H Mv m Um) as (C & D).
           rewrite FN by now apply NCE. rewrite C. fold c. ring.
    + intros v n b Hv Mv' NH Eb. subst n. assert (Mv : mask v = false) by (destruct (mask v); congruence). clear Mv'. destruct (in_dec Nat.eq_dec v edges) as [H|H].
      * rewrite FE by exact H. apply IDEAL; auto.
      * assert (Un : uphill v (best v)) by (right; auto). destruct (INT v Hv H Mv _ Un) as (C & D).
        rewrite !FN by auto. now rewrite C.
Qed.

(** The shares are determined by the flux rule. *)
Theorem ideal_unique s1 s2 : ideal_shares ref top vor bestr order (fun v c => c = basin v) s1 ->
  ideal_shares ref top vor bestr order (fun v c => c = basin v) s2 ->
  forall v b, In v order -> (s1 v b == s2 v b)%Q.
Proof.
  intros [M1 F1 B1] [M2 F2 B2].
  assert (G : forall post pre, order = pre ++ post -> (forall v b, In v pre -> s1 v b == s2 v b)%Q -> forall v b, In v order -> (s1 v b == s2 v b)%Q).
  { induction post as [|u t IH]; intros pre E H.
    - rewrite app_nil_r in E. now rewrite E.
    - apply (IH (pre ++ [u])); [now rewrite <- app_assoc|]. intros v b Hv. apply in_app_or in Hv as [Hv|[<-|[]]]; [auto|].
      assert (Hu : In u order) by (rewrite E; apply in_or_app; right; now left).
      assert (UP : forall n, mask u = false -> uphill u n -> (s1 n b == s2 n b)%Q).
      { intros n Mu Un. destruct (Hup u n Hu Mu Un) as [On L]. apply H. rewrite E in Hsort, On. eapply sorted_before; eauto. }
      destruct (mask u) eqn:Mu; [now rewrite (M1 u _ b Hu Mu eq_refl), (M2 u _ b Hu Mu eq_refl)|].
      assert (Mu' : mask u <> true) by congruence.
      destruct (existsb (fun na => Qltb (ref u) (ref (fst na))) (vor u)) eqn:EB.
      + apply existsb_exists in EB as ([n a] & HI & HL). cbn [fst] in HL. apply Qltb_lt in HL.
        rewrite F1, F2 by eauto. unfold inherited. apply Qmult_inj_r_ext. apply qsum_map_ext. intros [m c] Hm. cbn [fst snd].
        destruct (Qltb_spec (ref u) (ref m)) as [L|L]; [|reflexivity]. rewrite (UP m); [reflexivity|auto|left; eauto].
      + assert (NH : forall m a, In (m, a) (vor u) -> (ref m <= ref u)%Q).
        { intros m a HI. destruct (Qltb_spec (ref u) (ref m)) as [HL|HL]; [|exact HL].
          exfalso. apply Bool.diff_true_false. rewrite <- EB. symmetry. apply existsb_exists. exists (m, a). split; [exact HI|now apply Qltb_lt]. }
        rewrite (B1 u _ b Hu Mu' NH eq_refl), (B2 u _ b Hu Mu' NH eq_refl). apply UP; [reflexivity|]. right. auto. }
  apply (G order []); [reflexivity|]. intros v b [].
Qed.
End Core.
