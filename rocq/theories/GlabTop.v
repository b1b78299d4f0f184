(** [Grid.label] gives the connected components of the periodic mask. *)
From Coq Require Import Relations.
From Verif Require Import Base GridModel GridProofs RootsModel RootsProofs UnionModel LabelsProofs BadelfModel DimSpec GlabModel GlabSpec GlabProofs.
Local Open Scope Z_scope.

Lemma box_voxels px py pz v : In v (voxels px py pz) <-> in_box px py pz v.
Proof. rewrite in_voxels. destruct v as [[i j] k]. reflexivity. Qed.

Section Top.
Variables nx ny nz : Z.
Hypothesis HX : 0 < nx. Hypothesis HY : 0 < ny. Hypothesis HZ : 0 < nz.
Variable adj : voxel -> voxel -> Prop.
Hypothesis NB : neighbourhood adj.
Variable scipy : Z -> Z -> Z -> arr3 bool -> arr3 Z.
Hypothesis SO : scipy_ok adj scipy.
Variable m : arr3 bool.

Definition lab : arr3 Z := scipy nx ny nz m.
Definition padded : arr3 Z := pad_wrap nx ny nz lab.
Definition relab : arr3 Z := scipy (nx + 2) (ny + 2) (nz + 2) (nonzero3 padded).
Notation ok := (set_in nx ny nz m).
Notation okp := (set_in (nx + 2) (ny + 2) (nz + 2) (nonzero3 padded)).
Notation wchain := (chain (wrapped_adj adj nx ny nz) ok).

Definition home (p : voxel) : voxel := let '(x, y, z) := p in ((x - 1) mod nx, (y - 1) mod ny, (z - 1) mod nz).
Lemma padded_home p : rd3 padded p = rd3 lab (home p).
Proof. now destruct p as [[x y] z]. Qed.
Lemma home_box p : in_box nx ny nz (home p).
Proof. destruct p as [[x y] z]. cbn [home in_box]. repeat split; apply Z.mod_pos_bound; lia. Qed.
Lemma lab_zero v : in_box nx ny nz v -> (rd3 lab v = 0 <-> rd3 m v = false).
Proof. exact (proj1 (SO nx ny nz m HX HY HZ) v). Qed.
Lemma lab_eq a b : ok a -> ok b -> (rd3 lab a = rd3 lab b <-> chain adj ok a b).
Proof. exact (proj1 (proj2 (SO nx ny nz m HX HY HZ)) a b). Qed.
Lemma lab_nonzero v : ok v -> rd3 lab v <> 0.
Proof. intros [V M] E. apply (lab_zero v V) in E. congruence. Qed.
Lemma rd_nonzero p : rd3 (nonzero3 padded) p = negb (rd3 padded p =? 0).
Proof. now destruct p as [[x y] z]. Qed.
Lemma okp_home p : in_box (nx + 2) (ny + 2) (nz + 2) p -> (okp p <-> ok (home p)).
Proof.
  intros B. unfold set_in. rewrite rd_nonzero, negb_true_iff, Z.eqb_neq, padded_home. pose proof (home_box p) as HB. rewrite (lab_zero _ HB). rewrite not_false_iff_true. tauto.
Qed.
Lemma relab_eq a b : okp a -> okp b -> (rd3 relab a = rd3 relab b <-> chain adj okp a b).
Proof. exact (proj1 (proj2 (SO (nx + 2) (ny + 2) (nz + 2) (nonzero3 padded) ltac:(lia) ltac:(lia) ltac:(lia))) a b). Qed.
Lemma relab_zero v : in_box (nx + 2) (ny + 2) (nz + 2) v -> (rd3 relab v = 0 <-> rd3 padded v = 0).
Proof.
  intros B. rewrite (proj1 (SO (nx + 2) (ny + 2) (nz + 2) (nonzero3 padded) ltac:(lia) ltac:(lia) ltac:(lia)) v B). rewrite rd_nonzero, negb_false_iff. lia.
Qed.

Lemma home_adj p q : adj p q -> wrapped_adj adj nx ny nz (home p) (home q).
Proof.
  intros A. destruct p as [[x y] z], q as [[x' y'] z'].
  exists ((x' - 1) / nx - (x - 1) / nx, (y' - 1) / ny - (y - 1) / ny, (z' - 1) / nz - (z - 1) / nz).
  apply (proj1 (proj2 NB) _ _ (- 1 - nx * ((x - 1) / nx), - 1 - ny * ((y - 1) / ny), - 1 - nz * ((z - 1) / nz))) in A.
  cbn [home image moved] in *. rewrite !Z.mod_eq by lia.
  replace (x - 1 - nx * ((x - 1) / nx), y - 1 - ny * ((y - 1) / ny), z - 1 - nz * ((z - 1) / nz)) with
    (x + (-1 - nx * ((x - 1) / nx)), y + (-1 - ny * ((y - 1) / ny)), z + (-1 - nz * ((z - 1) / nz))) by (f_equal; [f_equal|]; lia).
  match goal with |- adj _ ?r => match type of A with adj _ ?s => replace r with s by (f_equal; [f_equal|]; lia) end end. exact A.
Qed.

Lemma chain_wchain a b : chain adj ok a b -> wchain a b.
Proof.
  apply (chain_map adj (wrapped_adj adj nx ny nz) ok ok (fun v => v)); auto. intros x y _ _ A. exists (0, 0, 0). destruct y as [[i j] k]. cbn [image]. now rewrite !Z.mul_0_l, !Z.add_0_r.
Qed.

(** Two labels meet in a feature of the padded array. *)
Definition meet (j k : Z) : Prop := exists p q, in_box (nx + 2) (ny + 2) (nz + 2) p /\ in_box (nx + 2) (ny + 2) (nz + 2) q /\ rd3 relab p = rd3 relab q /\ rd3 padded p = j /\ rd3 padded q = k.

Lemma meet_sym j k : meet j k -> meet k j.
Proof. intros (p & q & P & Q & E & J & K). exists q, p. auto. Qed.

Lemma meet_wchain j k : j <> k -> meet j k -> exists a b, ok a /\ ok b /\ rd3 lab a = j /\ rd3 lab b = k /\ wchain a b.
Proof.
  intros N (p & q & P & Q & E & J & K). exists (home p), (home q). rewrite <- !padded_home.
  assert (NP : rd3 padded p <> 0). { intros Z. pose proof (proj2 (relab_zero p P) Z) as R. rewrite R in E. symmetry in E. apply (relab_zero q Q) in E. congruence. }
  assert (NQ : rd3 padded q <> 0). { intros Z. pose proof (proj2 (relab_zero q Q) Z) as R. rewrite R in E. apply (relab_zero p P) in E. congruence. }
  assert (OP : okp p). { split; [exact P|]. rewrite rd_nonzero. apply negb_true_iff. lia. }
  assert (OQ : okp q). { split; [exact Q|]. rewrite rd_nonzero. apply negb_true_iff. lia. }
  split; [now apply okp_home|]. split; [now apply okp_home|]. split; [exact J|]. split; [exact K|].
  apply (chain_map adj (wrapped_adj adj nx ny nz) okp ok home).
  - intros v V. apply okp_home; [exact (proj1 V)|exact V].
  - intros x y _ _. apply home_adj.
  - now apply relab_eq.
Qed.

Lemma wadj_meet a b : ok a -> ok b -> wrapped_adj adj nx ny nz a b -> meet (rd3 lab a) (rd3 lab b).
Proof.
  intros A B [t T]. pose proof (proj2 (proj2 NB) _ _ T) as TT. destruct a as [[x y] z], b as [[x' y'] z'], t as [[t1 t2] t3]. cbn [image] in T, TT. unfold touching in TT.
  assert (BA := proj1 A). assert (BB := proj1 B). cbn [in_box] in BA, BB.
  set (p := (x + 1, y + 1, z + 1)). set (q := (x' + t1 * nx + 1, y' + t2 * ny + 1, z' + t3 * nz + 1)).
  assert (P : in_box (nx + 2) (ny + 2) (nz + 2) p) by (cbn; lia). assert (Q : in_box (nx + 2) (ny + 2) (nz + 2) q) by (cbn; lia).
  assert (EP : home p = (x, y, z)). { cbn. rewrite !Z.add_simpl_r. rewrite !Z.mod_small by lia. reflexivity. }
  assert (EQ : home q = (x', y', z')). { cbn. rewrite !Z.add_simpl_r. rewrite !Z.mod_add by lia. rewrite !Z.mod_small by lia. reflexivity. }
  exists p, q. split; [exact P|]. split; [exact Q|]. rewrite !padded_home, EP, EQ. split; [|auto].
  assert (OP : okp p) by (apply okp_home; [exact P|now rewrite EP]). assert (OQ : okp q) by (apply okp_home; [exact Q|now rewrite EQ]).
  apply relab_eq; auto. apply (chain_step _ _ p q q); auto; [|now constructor].
  apply (proj1 (proj2 NB) _ _ (1, 1, 1)) in T. exact T.
Qed.

Lemma wchain_sym a b : wchain a b -> wchain b a.
Proof.
  induction 1 as [v V|x y z X [t T] J IH]; [now constructor|]. apply (chain_trans _ _ _ y); [exact IH|].
  assert (Y := proj1 (chain_ends _ _ _ _ J)). apply (chain_step _ _ y x x); auto; [|now constructor].
  destruct x as [[x1 x2] x3], y as [[y1 y2] y3], t as [[t1 t2] t3]. exists (- t1, - t2, - t3). apply (proj1 NB) in T.
  apply (proj1 (proj2 NB) _ _ (- t1 * nx, - t2 * ny, - t3 * nz)) in T. cbn [image moved] in *.
  match type of T with adj ?r _ => replace r with (y1, y2, y3) in T by (f_equal; [f_equal|]; lia) end. exact T.
Qed.

(** ** With a background *)
Section Background.
Hypothesis BG : exists v, in_box nx ny nz v /\ rd3 m v = false.

Lemma labels_range : exists L, 0 <= L /\ length (unique3 nx ny nz lab) = Z.to_nat (L + 1) /\ (forall v, in_box nx ny nz v -> 0 <= rd3 lab v <= L) /\
  (forall x, 1 <= x <= L -> exists v, ok v /\ rd3 lab v = x).
Proof.
  destruct (proj2 (proj2 (SO nx ny nz m HX HY HZ))) as (L & L0 & H). fold lab in H. exists L. split; [exact L0|].
  assert (R : forall v, in_box nx ny nz v -> 0 <= rd3 lab v <= L).
  { intros v V. destruct (rd3 m v) eqn:M.
    - assert (1 <= rd3 lab v <= L); [|lia]. apply H. exists v. split; [split; assumption|reflexivity].
    - apply (lab_zero v V) in M. lia. }
  split; [|split; [exact R|intros x X; now apply H]].
  assert (E : unique3 nx ny nz lab = map Z.of_nat (seq 0 (Z.to_nat (L + 1)))).
  { unfold unique3. apply sorted_ext.
    - apply np_unique_sorted.
    - clear. generalize 0%nat. induction (Z.to_nat (L + 1)) as [|n IH]; intros s; cbn [seq map]; constructor; [apply IH|]. apply Forall_forall. intros x I. apply in_map_iff in I as (k & <- & K). apply in_seq in K. lia.
    - intros x. rewrite np_unique_in, !in_map_iff. split.
      + intros (v & <- & V). apply box_voxels in V. specialize (R v V). exists (Z.to_nat (rd3 lab v)). split; [lia|]. apply in_seq. lia.
      + intros (k & <- & K). apply in_seq in K. destruct k as [|k].
        * destruct BG as (v & V & M). exists v. split; [apply (lab_zero v V) in M; exact M|now apply box_voxels].
        * destruct (proj1 (H (Z.of_nat (S k)))) as (v & [V _] & E); [lia|]. exists v. split; [exact E|now apply box_voxels]. }
  rewrite E, map_length, seq_length. reflexivity.
Qed.

Lemma in_some_class x (r : list (list Z)) : (exists c, In c r /\ In x c) \/ (forall c, In c r -> ~ In x c).
Proof.
  induction r as [|c r [(d & D & X)|N]]; [right; intros c []|left; exists d; split; [now right|exact X]|].
  destruct (in_dec Z.eq_dec x c) as [I|I]; [left; exists c; split; [now left|exact I]|]. right. intros d [<-|D]; auto.
Qed.

Theorem label_background fuel early : (length (voxels nx ny nz) < fuel)%nat -> exists out, grid_label nx ny nz scipy fuel early m = Done out /\
  (forall v, in_box nx ny nz v -> (rd3 out v = 0 <-> rd3 m v = false)) /\
  (forall a b, ok a -> ok b -> (rd3 out a = rd3 out b <-> wchain a b)) /\
  (exists K, 0 <= K /\ forall x, 1 <= x <= K <-> exists v, ok v /\ rd3 out v = x).
Proof.
  intros FU. destruct labels_range as (L & L0 & LEN & R & REP). unfold grid_label. fold lab. fold padded. fold relab.
  destruct (early && Nat.eqb (length (unique3 nx ny nz lab)) 1) eqn:EE.
  - exists lab. split; [reflexivity|]. apply andb_true_iff in EE as [_ EE]. apply Nat.eqb_eq in EE. assert (L = 0) by lia. subst L.
    assert (NO : forall v, ~ ok v). { intros v V. apply (lab_nonzero v V). specialize (R v (proj1 V)). lia. }
    split; [exact lab_zero|]. split; [intros a b A; destruct (NO a A)|]. exists 0. split; [lia|]. intros x. split; [lia|]. intros (v & V & _). destruct (NO v V).
  - clear EE. set (n := length (unique3 nx ny nz lab)) in *.
    assert (NV : (n <= length (voxels nx ny nz))%nat).
    { unfold n, unique3. rewrite <- (map_length (rd3 lab)). apply NoDup_incl_length; [apply np_unique_NoDup|]. intros x I. now rewrite np_unique_in in I. }
    assert (RG : forall v, In v (voxels (nx + 2) (ny + 2) (nz + 2)) -> inr n (rd3 padded v)).
    { intros v _. rewrite padded_home. specialize (R _ (home_box v)). unfold inr. lia. }
    destruct (connect_spec nx ny nz n padded relab RG (unique3 (nx + 2) (ny + 2) (nz + 2) relab) (repeat [] n)) as (uc & -> & LU & UC); [apply repeat_length|]. cbn [obind].
    assert (UM : forall j k, U n uc j k <-> j <> k /\ meet j k).
    { intros j k. unfold U. split.
      - intros [J K]. apply (UC j k J) in K as [K|(N & i & _ & T1 & T2)].
        + unfold entry in K. rewrite nth_repeat in K. destruct K.
        + split; [auto|]. apply features_in in T1 as (p & P & P1 & P2), T2 as (q & Q & Q1 & Q2). apply box_voxels in P, Q. exists p, q. rewrite P1, Q1. auto.
      - intros [N (p & q & P & Q & E & J & K)]. apply box_voxels in P, Q. assert (IJ : inr n j) by (rewrite <- J; now apply RG). split; [exact IJ|].
        apply (UC j k IJ). right. split; [auto|]. exists (rd3 relab p). split; [apply np_unique_in; now apply in_map|]. split; apply features_in; [exists p|exists q]; auto. }
    assert (USYM : forall j k, U n uc j k -> U n uc k j). { intros j k H. apply UM in H as [N M]. apply UM. split; [auto|now apply meet_sym]. }
    assert (URANGE : forall j k, U n uc j k -> inr n k). { intros j k H. apply USYM in H. exact (proj1 H). }
    destruct (reduce_spec n uc LU URANGE USYM fuel (map Z.of_nat (seq 0 n)) ltac:(lia) []) as (r & -> & CL & CO).
    { intros i I. apply in_map_iff in I as (k & <- & K). apply in_seq in K. unfold inr. lia. }
    cbn [obind]. set (lowered := fold_left lower_class r lab). pose proof (lower_spec n uc LU URANGE USYM r CL lab) as LS. fold lowered in LS.
    assert (R1 : forall j k, clos_trans_1n Z (U n uc) j k -> exists a b, ok a /\ ok b /\ rd3 lab a = j /\ rd3 lab b = k /\ wchain a b).
    { intros j k H. induction H as [j k H|j y k H K IH]; apply UM in H as [N M]; apply (meet_wchain j _ N) in M as (a & b & A & B & EA & EB & W).
      - exists a, b. auto.
      - destruct IH as (b' & c & B' & C & EB' & EC & W'). exists a, c. repeat split; try assumption; try (apply A || apply C). apply (chain_trans _ _ _ b); [exact W|]. apply (chain_trans _ _ _ b'); [|exact W'].
        apply chain_wchain, lab_eq; auto. congruence. }
    assert (R2 : forall a b, wchain a b -> rd3 lab a = rd3 lab b \/ clos_trans_1n Z (U n uc) (rd3 lab a) (rd3 lab b)).
    { induction 1 as [v V|x y z X T J IH]; [now left|]. pose proof (wadj_meet x y X (proj1 (chain_ends _ _ _ _ J)) T) as M.
      destruct (Z.eq_dec (rd3 lab x) (rd3 lab y)) as [E|N]; [rewrite E; exact IH|]. right. assert (H : U n uc (rd3 lab x) (rd3 lab y)) by now apply UM.
      destruct IH as [E|IH]; [rewrite <- E; now apply t1n_step|]. exact (Relation_Operators.t1n_trans _ _ _ _ _ H IH). }
    assert (POS : forall c x, In c r -> In x c -> 1 <= x /\ (forall y, In y c <-> clos_trans_1n Z (U n uc) x y)).
    { intros c x C X. pose proof (CL c C) as CC. split; [|intros y; exact (class_reach n uc USYM c x y CC X)].
      pose proof (proj1 (class_reach n uc USYM c x x CC X) X) as H. apply R1 in H as (a & _ & A & _ & E & _). pose proof (lab_nonzero a A). specialize (R a (proj1 A)). lia. }
    assert (F0 : forall v, in_box nx ny nz v -> 0 <= rd3 lowered v /\ (rd3 lowered v = 0 <-> rd3 m v = false)).
    { intros v V. rewrite <- (lab_zero v V). specialize (R v V). destruct (in_some_class (rd3 lab v) r) as [(c & C & X)|N].
      - rewrite (proj1 (LS v) c C X). pose proof (low_in n uc c (CL c C)) as LI. pose proof (proj1 (POS c _ C LI)). pose proof (proj1 (POS c _ C X)). lia.
      - rewrite (proj2 (LS v) N). lia. }
    assert (F1 : forall a b, ok a -> ok b -> (rd3 lowered a = rd3 lowered b <-> wchain a b)).
    { intros a b A B. assert (BACK : clos_trans_1n Z (U n uc) (rd3 lab a) (rd3 lab b) -> wchain a b).
      { intros H. apply R1 in H as (a' & b' & A' & B' & EA & EB & W). apply (chain_trans _ _ _ a'); [apply chain_wchain, lab_eq; auto|]. apply (chain_trans _ _ _ b'); [exact W|]. apply chain_wchain, lab_eq; auto. }
      destruct (in_some_class (rd3 lab a) r) as [(c & C & X)|NA], (in_some_class (rd3 lab b) r) as [(d & D & Y)|NBB].
      - rewrite (proj1 (LS a) c C X), (proj1 (LS b) d D Y). split.
        + intros E. apply BACK. apply (POS c _ C X). rewrite (class_eq n uc USYM c d (low c)); auto; [now apply (low_in n uc c), CL|]. rewrite E. now apply (low_in n uc d), CL.
        + intros W. f_equal. apply (class_eq n uc USYM c d (rd3 lab b)); auto. apply R2 in W as [E|W]; [rewrite <- E; exact X|]. now apply (POS c _ C X).
      - rewrite (proj1 (LS a) c C X), (proj2 (LS b) NBB). split.
        + intros E. destruct (NBB c C). rewrite <- E. apply (low_in n uc c), CL, C.
        + intros W. destruct (NBB c C). apply R2 in W as [E|W]; [rewrite <- E; exact X|]. now apply (POS c _ C X).
      - rewrite (proj2 (LS a) NA), (proj1 (LS b) d D Y). split.
        + intros E. destruct (NA d D). rewrite E. apply (low_in n uc d), CL, D.
        + intros W. destruct (NA d D). apply wchain_sym, R2 in W as [E|W]; [rewrite <- E; exact Y|]. now apply (POS d _ D Y).
      - rewrite (proj2 (LS a) NA), (proj2 (LS b) NBB). split.
        + intros E. now apply chain_wchain, lab_eq.
        + intros W. apply R2 in W as [E|W]; [exact E|]. exfalso.
          assert (EX : exists y, U n uc (rd3 lab a) y) by (inversion W; subst; eauto). destruct EX as (y & H).
          destruct (CO (rd3 lab a) y) as [[]|(c & C & X)]; [|exact H|exact (NA c C X)]. destruct H as [[H1 H2] _]. apply in_map_iff. exists (Z.to_nat (rd3 lab a)). split; [lia|]. apply in_seq. lia. }
    set (us := unique3 nx ny nz lowered). assert (SU : StronglySorted Z.lt us) by apply np_unique_sorted.
    assert (IU : forall x, In x us <-> exists v, in_box nx ny nz v /\ rd3 lowered v = x).
    { intros x. unfold us, unique3. rewrite np_unique_in, in_map_iff. split; intros (v & A & B); exists v; [apply box_voxels in B|apply box_voxels in A]; auto. }
    assert (US0 : forall u, In u us -> 0 <= u). { intros u I. apply IU in I as (v & V & <-). now apply F0. }
    assert (OUT : forall v, in_box nx ny nz v -> rd3 (renumber 0 us lowered) v = index_of (rd3 lowered v) us).
    { intros v V. rewrite renumber_spec; auto. apply IU. now exists v. }
    assert (Z0 : In 0 us). { destruct BG as (v & V & M). apply IU. exists v. split; [exact V|]. now apply F0. }
    assert (I0 : index_of 0 us = 0).
    { destruct us as [|h t]; [destruct Z0|]. cbn [index_of]. destruct (Z.eqb_spec 0 h) as [E|N]; [reflexivity|]. exfalso. destruct Z0 as [E|I]; [congruence|]. apply StronglySorted_inv in SU as [_ F]. rewrite Forall_forall in F. specialize (F 0 I). specialize (US0 h (or_introl eq_refl)). lia. }
    exists (renumber 0 us lowered). split; [reflexivity|]. split; [|split].
    + intros v V. rewrite (OUT v V). rewrite <- (proj2 (F0 v V)). assert (In (rd3 lowered v) us) by (apply IU; now exists v). split; [|intros ->; exact I0].
      intros E. apply (index_of_inj _ _ us); auto. congruence.
    + intros a b A B. rewrite (OUT a (proj1 A)), (OUT b (proj1 B)), <- (F1 a b A B). split; [|congruence]. intros E. apply (index_of_inj _ _ us) in E; auto; apply IU; [exists a|exists b]; split; auto; [exact (proj1 A)|exact (proj1 B)].
    + exists (Z.of_nat (length us) - 1). assert (length us <> 0)%nat by (destruct us; [destruct Z0|discriminate]). split; [lia|]. intros x. split.
      * intros X. destruct (nth_error us (Z.to_nat x)) as [u|] eqn:E; [|apply nth_error_None in E; lia]. pose proof (index_of_nth_inv us _ _ SU E) as IX. pose proof (nth_error_In _ _ E) as I. apply IU in I as (v & V & EV).
        exists v. rewrite (OUT v V), EV, IX. split; [|lia]. split; [exact V|]. apply not_false_iff_true. intros M. apply (F0 v V) in M. rewrite EV in M. subst u. rewrite M, I0 in IX. lia.
      * intros (v & VV & <-). pose proof (proj1 VV) as V. rewrite (OUT v V). assert (I : In (rd3 lowered v) us) by (apply IU; now exists v). pose proof (index_of_range _ us I) as IR. split; [|lia].
        enough (index_of (rd3 lowered v) us <> 0) by lia. intros E. rewrite <- I0 in E. apply index_of_inj in E; auto. apply (F0 v V) in E. destruct VV. congruence.
Qed.
End Background.

(** ** Without background *)
Section Full.
Hypothesis ALL : forall v, in_box nx ny nz v -> rd3 m v = true.
Hypothesis ONE : forall a b, ok a -> ok b -> chain adj ok a b.

Lemma full_one v : in_box nx ny nz v -> rd3 lab v = 1.
Proof.
  destruct (proj2 (proj2 (SO nx ny nz m HX HY HZ))) as (L & L0 & H). fold lab in H.
  assert (O : ok (0, 0, 0)) by (split; [cbn; lia|apply ALL; cbn; lia]).
  intros V. assert (L = 0 \/ 1 <= L) as [->|L1] by lia.
  - assert (1 <= rd3 lab (0, 0, 0) <= 0); [|lia]. apply H. now exists (0, 0, 0).
  - destruct (proj1 (H 1) ltac:(lia)) as (w & W & E). rewrite <- E. apply lab_eq; auto; [|apply ONE; auto]; split; auto.
Qed.
Lemma full_unique : unique3 nx ny nz lab = [1].
Proof.
  unfold unique3. apply sorted_ext; [apply np_unique_sorted|repeat constructor|]. intros x. rewrite np_unique_in, in_map_iff. cbn. split.
  - intros (v & <- & V). left. symmetry. apply full_one. now apply box_voxels.
  - intros [<-|[]]. exists (0, 0, 0). assert (in_box nx ny nz (0, 0, 0)) by (cbn; lia). split; [now apply full_one|now apply box_voxels].
Qed.

Theorem label_full fuel : exists out, grid_label nx ny nz scipy fuel true m = Done out /\ forall v, in_box nx ny nz v -> rd3 out v = 1.
Proof. exists lab. split; [|exact full_one]. unfold grid_label. fold lab. now rewrite full_unique. Qed.

(** Without early return there is no entry for the label 1. *)
Theorem label_full_fails fuel : grid_label nx ny nz scipy fuel false m = Raised.
Proof.
  unfold grid_label. fold lab. fold padded. fold relab. rewrite full_unique. cbn [andb length repeat].
  assert (P : in_box (nx + 2) (ny + 2) (nz + 2) (0, 0, 0)) by (cbn; lia). apply box_voxels in P.
  destruct (unique3 (nx + 2) (ny + 2) (nz + 2) relab) as [|i t] eqn:E.
  - assert (I : In (rd3 relab (0, 0, 0)) []) by (rewrite <- E; unfold unique3; apply np_unique_in; now apply in_map). destruct I.
  - assert (I : In i (unique3 (nx + 2) (ny + 2) (nz + 2) relab)) by (rewrite E; now left). unfold unique3 in I. rewrite np_unique_in in I. apply in_map_iff in I as (w & W & V).
    assert (F : features_of nx ny nz padded relab i = [1]).
    { apply sorted_ext; [apply np_unique_sorted|repeat constructor|]. intros x. rewrite features_in. cbn. split.
      - intros (v & _ & _ & <-). left. symmetry. rewrite padded_home. apply full_one, home_box.
      - intros [<-|[]]. exists w. split; [exact V|]. split; [exact W|]. rewrite padded_home. apply full_one, home_box. }
    cbn [connect]. now rewrite F.
Qed.
End Full.
End Top.

(** ** The two neighbourhoods *)
Lemma touching_neighbourhood : neighbourhood touching.
Proof. split; [|split]; intros [[x y] z] [[x' y'] z']; [|intros [[a b] c]|]; unfold touching; cbn; lia. Qed.
Lemma face_neighbourhood : neighbourhood sharing_face.
Proof. split; [|split]; intros [[x y] z] [[x' y'] z']; [|intros [[a b] c]|]; unfold sharing_face; cbn; lia. Qed.

Section Boxes.
Variables nx ny nz : Z.
Variable adj : voxel -> voxel -> Prop.
Hypothesis FACE : forall a b, sharing_face a b -> adj a b.
Variable okb : voxel -> Prop.
Hypothesis OK : forall v, okb v <-> in_box nx ny nz v.

Lemma walk_x y z k : forall x, okb (x, y, z) -> okb (x + Z.of_nat k, y, z) -> chain adj okb (x, y, z) (x + Z.of_nat k, y, z) /\ chain adj okb (x + Z.of_nat k, y, z) (x, y, z).
Proof.
  induction k as [|k IH]; intros x A B.
  - replace (x + Z.of_nat 0) with x by lia. split; now constructor.
  - assert (M : okb (x + Z.of_nat k, y, z)) by (apply OK in A, B; apply OK; cbn in *; lia). destruct (IH x A M) as [C D]. split.
    + apply (chain_trans _ _ _ _ _ C). apply (chain_step _ _ _ (x + Z.of_nat (S k), y, z)); auto; [|now constructor]. apply FACE. unfold sharing_face. lia.
    + apply (chain_step _ _ _ (x + Z.of_nat k, y, z)); auto. apply FACE. unfold sharing_face. lia.
Qed.
Lemma walk_y x z k : forall y, okb (x, y, z) -> okb (x, y + Z.of_nat k, z) -> chain adj okb (x, y, z) (x, y + Z.of_nat k, z) /\ chain adj okb (x, y + Z.of_nat k, z) (x, y, z).
Proof.
  induction k as [|k IH]; intros y A B.
  - replace (y + Z.of_nat 0) with y by lia. split; now constructor.
  - assert (M : okb (x, y + Z.of_nat k, z)) by (apply OK in A, B; apply OK; cbn in *; lia). destruct (IH y A M) as [C D]. split.
    + apply (chain_trans _ _ _ _ _ C). apply (chain_step _ _ _ (x, y + Z.of_nat (S k), z)); auto; [|now constructor]. apply FACE. unfold sharing_face. lia.
    + apply (chain_step _ _ _ (x, y + Z.of_nat k, z)); auto. apply FACE. unfold sharing_face. lia.
Qed.
Lemma walk_z x y k : forall z, okb (x, y, z) -> okb (x, y, z + Z.of_nat k) -> chain adj okb (x, y, z) (x, y, z + Z.of_nat k) /\ chain adj okb (x, y, z + Z.of_nat k) (x, y, z).
Proof.
  induction k as [|k IH]; intros z A B.
  - replace (z + Z.of_nat 0) with z by lia. split; now constructor.
  - assert (M : okb (x, y, z + Z.of_nat k)) by (apply OK in A, B; apply OK; cbn in *; lia). destruct (IH z A M) as [C D]. split.
    + apply (chain_trans _ _ _ _ _ C). apply (chain_step _ _ _ (x, y, z + Z.of_nat (S k))); auto; [|now constructor]. apply FACE. unfold sharing_face. lia.
    + apply (chain_step _ _ _ (x, y, z + Z.of_nat k)); auto. apply FACE. unfold sharing_face. lia.
Qed.
Lemma box_connected a b : okb a -> okb b -> chain adj okb a b.
Proof.
  destruct a as [[x y] z], b as [[x' y'] z']. intros A B. assert (A' := proj1 (OK _) A). assert (B' := proj1 (OK _) B). cbn in A', B'.
  assert (M1 : okb (x', y, z)) by (apply OK; cbn; lia). assert (M2 : okb (x', y', z)) by (apply OK; cbn; lia).
  apply (chain_trans _ _ _ (x', y, z)); [|apply (chain_trans _ _ _ (x', y', z))].
  - destruct (Z.le_ge_cases x x') as [H|H].
    + pose proof (walk_x y z (Z.to_nat (x' - x)) x A) as W. rewrite Z2Nat.id in W by lia. replace (x + (x' - x)) with x' in W by lia. exact (proj1 (W M1)).
    + pose proof (walk_x y z (Z.to_nat (x - x')) x' M1) as W. rewrite Z2Nat.id in W by lia. replace (x' + (x - x')) with x in W by lia. exact (proj2 (W A)).
  - destruct (Z.le_ge_cases y y') as [H|H].
    + pose proof (walk_y x' z (Z.to_nat (y' - y)) y M1) as W. rewrite Z2Nat.id in W by lia. replace (y + (y' - y)) with y' in W by lia. exact (proj1 (W M2)).
    + pose proof (walk_y x' z (Z.to_nat (y - y')) y' M2) as W. rewrite Z2Nat.id in W by lia. replace (y' + (y - y')) with y in W by lia. exact (proj2 (W M1)).
  - destruct (Z.le_ge_cases z z') as [H|H].
    + pose proof (walk_z x' y' (Z.to_nat (z' - z)) z M2) as W. rewrite Z2Nat.id in W by lia. replace (z + (z' - z)) with z' in W by lia. exact (proj1 (W B)).
    + pose proof (walk_z x' y' (Z.to_nat (z - z')) z' B) as W. rewrite Z2Nat.id in W by lia. replace (z' + (z - z')) with z in W by lia. exact (proj2 (W M2)).
Qed.
End Boxes.

(** ** A labelling with the promised properties *)
From Verif Require Import DimProofs DimSearch DimLabel.
Section Ref.
Variable adj : voxel -> voxel -> Prop.
Variable adjb : voxel -> voxel -> bool.
Hypothesis ADJ : forall a b, adjb a b = true <-> adj a b.
Hypothesis SYM : forall a b, adj a b -> adj b a.
Variables px py pz : Z.
Variable m : arr3 bool.
Notation okm := (set_in px py pz m).

Definition ref_edges : list (voxel * voxel) := filter (fun '(a, b) => setb px py pz m a && setb px py pz m b && adjb a b) (list_prod (voxels px py pz) (voxels px py pz)).
Definition ref_raw : arr3 Z := fold_left merge ref_edges (first_label px py pz m).
Definition ref_names : list Z := np_unique (map (rd3 ref_raw) (filter (setb px py pz m) (voxels px py pz))).
Definition ref_label : arr3 Z := fun i j k => if setb px py pz m (i, j, k) then 1 + index_of (ref_raw i j k) ref_names else 0.

Lemma ref_edges_in a b : In (a, b) ref_edges <-> okm a /\ okm b /\ adj a b.
Proof.
  unfold ref_edges. rewrite filter_In, !andb_true_iff, !setb_spec, ADJ, in_prod_iff, !box_voxels. unfold set_in. tauto.
Qed.
Lemma ref_linked x y : clos_refl_sym_trans _ (link (first_label px py pz m) ref_edges) x y -> (okm x <-> okm y) /\ (okm x -> chain adj okm x y /\ chain adj okm y x).
Proof.
  induction 1 as [u v [H|H]|u|u v _ [H1 H2]|u v w _ [H1 H2] _ [H3 H4]].
  - rewrite !first_spec in H. destruct (setb px py pz m u) eqn:U, (setb px py pz m v) eqn:V.
    + apply setb_spec in U, V. rewrite (number_inj px py pz m u v U V H) in *. split; [tauto|]. intros _. split; now constructor.
    + apply setb_spec in U. pose proof (number_pos px py pz m u U). lia.
    + apply setb_spec in V. pose proof (number_pos px py pz m v V). lia.
    + split; [rewrite <- !setb_spec, U, V; tauto|]. rewrite <- setb_spec, U. discriminate.
  - apply ref_edges_in in H as (A & B & T). split; [tauto|]. intros _. split; [apply (chain_step _ _ u v v)|apply (chain_step _ _ v u u)]; auto; now constructor.
  - split; [tauto|]. intros U. split; now constructor.
  - split; [tauto|]. intros V. tauto.
  - split; [tauto|]. intros U. split; [apply chain_trans with v|apply chain_trans with v]; tauto.
Qed.
Lemma ref_raw_eq a b : okm a -> okm b -> (rd3 ref_raw a = rd3 ref_raw b <-> chain adj okm a b).
Proof.
  intros A B. unfold ref_raw. rewrite merge_all. split; [intros H; now apply (proj2 (ref_linked a b H))|]. induction 1 as [v V|x y z X T J IH]; [apply rst_refl|].
  assert (Y := proj1 (chain_ends _ _ _ _ J)). apply rst_trans with y; [apply rst_step; right; apply ref_edges_in; auto|now apply IH].
Qed.
Lemma rd_ref v : rd3 ref_label v = if setb px py pz m v then 1 + index_of (rd3 ref_raw v) ref_names else 0.
Proof. now destruct v as [[i j] k]. Qed.
Lemma ref_names_in x : In x ref_names <-> exists v, okm v /\ rd3 ref_raw v = x.
Proof.
  unfold ref_names. rewrite np_unique_in, in_map_iff. split.
  - intros (v & E & I). apply filter_In in I as [_ I]. apply setb_spec in I. now exists v.
  - intros (v & V & E). exists v. split; [exact E|]. apply filter_In. split; [apply box_voxels, V|now apply setb_spec].
Qed.
Lemma ref_label_ok : features_ok adj px py pz m ref_label.
Proof.
  split; [|split].
  - intros v V. rewrite rd_ref. destruct (setb px py pz m v) eqn:S.
    + apply setb_spec in S. assert (I : In (rd3 ref_raw v) ref_names) by (apply ref_names_in; now exists v). pose proof (index_of_range _ _ I). destruct S as [_ S]. rewrite S. split; [lia|discriminate].
    + split; [|reflexivity]. intros _. apply not_true_iff_false. intros M. assert (setb px py pz m v = true) by (apply setb_spec; split; assumption). congruence.
  - intros a b A B. rewrite !rd_ref. rewrite (proj2 (setb_spec px py pz m a) A), (proj2 (setb_spec px py pz m b) B), <- (ref_raw_eq a b A B). split; [|congruence].
    intros E. apply (index_of_inj _ _ ref_names); [apply ref_names_in; now exists a|apply ref_names_in; now exists b|lia].
  - exists (Z.of_nat (length ref_names)). split; [lia|]. intros x. split.
    + intros X. destruct (nth_error ref_names (Z.to_nat (x - 1))) as [u|] eqn:E; [|apply nth_error_None in E; lia].
      pose proof (index_of_nth_inv ref_names _ _ (np_unique_sorted _) E) as IX. pose proof (nth_error_In _ _ E) as I. apply ref_names_in in I as (v & V & EV). exists v. split; [exact V|].
      rewrite rd_ref, (proj2 (setb_spec px py pz m v) V), EV, IX. lia.
    + intros (v & V & <-). rewrite rd_ref, (proj2 (setb_spec px py pz m v) V). assert (I : In (rd3 ref_raw v) ref_names) by (apply ref_names_in; now exists v). pose proof (index_of_range _ _ I). lia.
Qed.
End Ref.

Definition faceb (a b : voxel) : bool := let '(x, y, z) := a in let '(x', y', z') := b in Z.abs (x - x') + Z.abs (y - y') + Z.abs (z - z') <=? 1.
Lemma faceb_spec a b : faceb a b = true <-> sharing_face a b.
Proof. destruct a as [[x y] z], b as [[x' y'] z']. unfold faceb, sharing_face. apply Z.leb_le. Qed.

Definition ref_scipy (adjb : voxel -> voxel -> bool) (px py pz : Z) (m : arr3 bool) : arr3 Z := ref_label adjb px py pz m.
Lemma ref_touching : scipy_ok touching (ref_scipy touchb).
Proof. intros px py pz m _ _ _. apply ref_label_ok; [exact touchb_spec|apply touching_neighbourhood]. Qed.
Lemma ref_faces : scipy_ok sharing_face (ref_scipy faceb).
Proof. intros px py pz m _ _ _. apply ref_label_ok; [exact faceb_spec|apply face_neighbourhood]. Qed.
