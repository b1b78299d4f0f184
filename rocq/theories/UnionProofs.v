From Verif Require Import Base GridModel NeighModel RootsModel RootsSpec RootsProofs UnionModel UnionSpec.
From Coq Require Import ZifyBool ZifyNat.

(** ** Depth of a node *)
Inductive climb (p : list Z) : nat -> nat -> nat -> Prop :=
| climb_root i : nth_error p i = Some (Z.of_nat i) -> climb p 0 i i
| climb_up k i j r : nth_error p i = Some (Z.of_nat j) -> i <> j -> climb p k j r -> climb p (S k) i r.

Lemma climb_reaches p k i r : climb p k i r -> reaches p i r.
Proof. induction 1; [now constructor|eapply reaches_step; eauto]. Qed.

Lemma reaches_climb p i r : reaches p i r -> exists k, climb p k i r.
Proof.
  induction 1 as [i E|i j r E R (k & IH)]; [exists 0%nat; now constructor|].
  destruct (Nat.eq_dec i j) as [->|N]; [exists k; exact IH|]. exists (S k). econstructor; eauto.
Qed.

Lemma ptr_inj (p : list Z) i a b : nth_error p i = Some (Z.of_nat a) -> nth_error p i = Some (Z.of_nat b) -> a = b.
Proof. intros A B. rewrite A in B. injection B as B. lia. Qed.

Lemma climb_fun p k1 i r1 : climb p k1 i r1 -> forall k2 r2, climb p k2 i r2 -> k1 = k2 /\ r1 = r2.
Proof.
  induction 1 as [i E|k i j r E N C IH]; intros k2 r2 H2; inversion H2; subst.
  - auto.
  - exfalso. apply H0. eapply ptr_inj; eauto.
  - exfalso. apply N. symmetry. eapply ptr_inj; eauto.
  - assert (j = j0) by (eapply ptr_inj; eauto). subst j0. destruct (IH _ _ H1) as [-> ->]. auto.
Qed.

Lemma climb_lt_length p k i r : climb p k i r -> (k < length p)%nat.
Proof.
  intros C.
  assert (exists l, NoDup l /\ length l = S k /\
     forall x, In x l -> (x < length p)%nat /\ exists m, (m <= k)%nat /\ climb p m x r).
  { induction C as [i E|k i j r E N C (l & ND & HL & HA)].
    - exists [i]. repeat split; [constructor; [intros []|constructor]| |].
      + destruct H as [<-|[]]. apply nth_error_Some. congruence.
      + destruct H as [<-|[]]. exists 0%nat. split; [lia|now constructor].
    - exists (i :: l). split; [|split].
      + constructor; [|exact ND]. intros Hi. destruct (HA i Hi) as (_ & m & Hm & Cm).
        assert (C' : climb p (S k) i r) by (econstructor; eauto).
        destruct (climb_fun _ _ _ _ C' _ _ Cm). lia.
      + simpl. lia.
      + intros x [<-|Hx].
        * split; [apply nth_error_Some; congruence|]. exists (S k). split; [lia|econstructor; eauto].
        * destruct (HA x Hx) as (A & m & Hm & Cm). split; [exact A|]. exists m. split; [lia|exact Cm]. }
  destruct H as (l & ND & HL & HA).
  assert (incl l (seq 0 (length p))).
  { intros x Hx. apply in_seq. destruct (HA x Hx). lia. }
  pose proof (NoDup_incl_length ND H) as LE. rewrite seq_length in LE. lia.
Qed.

(** A node that is deeper is not on the path. *)
Lemma climb_upd p k i r x v : climb p k i r -> (forall m, (m <= k)%nat -> ~ exists s, climb p m x s) ->
  climb (upd p x v) k i r.
Proof.
  induction 1 as [i E|k i j r E N C IH]; intros H.
  - assert (i <> x) by (intros ->; apply (H 0%nat (Nat.le_refl _)); eexists; now constructor).
    apply climb_root. rewrite nth_error_upd. replace (Nat.eqb x i) with false by lia. exact E.
  - assert (i <> x) by (intros ->; apply (H (S k) (Nat.le_refl _)); eexists; econstructor; eauto).
    eapply climb_up; [|exact N|].
    + rewrite nth_error_upd. replace (Nat.eqb x i) with false by lia. exact E.
    + apply IH. intros m Hm. apply H. lia.
Qed.

(** ** What compression preserves *)
Definition active (p : list Z) (i : nat) : Prop := exists x, nth_error p i = Some x /\ x <> -1.

Lemma reaches_active p i r : reaches p i r -> active p i.
Proof. intros [j E|j k s E _]; eexists; (split; [exact E|lia]). Qed.

Lemma good_active_reaches p i : good_pointers p -> active p i -> exists r, reaches p i r.
Proof. intros [_ G] (x & Hx & N). eapply G; eauto. Qed.

Lemma reaches_root p i r : reaches p i r -> nth_error p r = Some (Z.of_nat r).
Proof. induction 1; auto. Qed.

(** [same_forest p q]: same domain and the same root for every node. *)
Definition same_forest (p q : list Z) : Prop :=
  length q = length p /\
  (forall i, nth_error q i = Some (-1) <-> nth_error p i = Some (-1)) /\
  (forall i s, reaches q i s <-> reaches p i s).

Lemma same_forest_refl p : same_forest p p.
Proof. repeat split; auto. Qed.

Lemma same_forest_trans p q r : same_forest p q -> same_forest q r -> same_forest p r.
Proof.
  intros (A1 & A2 & A3) (B1 & B2 & B3). split; [congruence|split].
  - intros i. rewrite B2. apply A2.
  - intros i s. rewrite B3. apply A3.
Qed.

Lemma good_range p i j : good_pointers p -> nth_error p i = Some (Z.of_nat j) -> (j < length p)%nat /\ active p j.
Proof.
  intros [G _] H. destruct (G i _ H ltac:(lia)) as [R N]. rewrite Nat2Z.id in N. split; [lia|].
  exists (nth j p (-1)). assert (j < length p)%nat by lia.
  split; [now apply nth_error_nth_lt|]. rewrite (nth_error_nth_lt p j (-1)) in N by lia. congruence.
Qed.

Lemma good_ptr p i : good_pointers p -> active p i -> exists j, nth_error p i = Some (Z.of_nat j).
Proof.
  intros [G _] (x & Hx & N). destruct (G i x Hx N) as [R _]. exists (Z.to_nat x). rewrite Hx. f_equal. lia.
Qed.

(** Redirecting a non-root node [x] to an ancestor [a] of it other than itself. *)
Lemma redirect p x a s : good_pointers p -> reaches p x s ->
  nth_error p x <> Some (Z.of_nat x) -> reaches p a s ->
  (exists k m, climb p k x s /\ climb p m a s /\ (m < k)%nat) ->
  same_forest p (upd p x (Z.of_nat a)) /\ good_pointers (upd p x (Z.of_nat a)).
Proof.
  intros G Rx NR Ra (kx & ma & Cx & Ca & LT).
  assert (Hx : (x < length p)%nat).
  { destruct (reaches_active _ _ _ Rx) as (z & Hz & _). apply nth_error_Some. congruence. }
  set (q := upd p x (Z.of_nat a)).
  assert (Qx : nth_error q x = Some (Z.of_nat a)).
  { unfold q. rewrite nth_error_upd, Nat.eqb_refl. replace (Nat.ltb x (length p)) with true by lia. reflexivity. }
  assert (Qo : forall i, i <> x -> nth_error q i = nth_error p i).
  { intros i Hi. unfold q. rewrite nth_error_upd. replace (Nat.eqb x i) with false by lia. reflexivity. }
  assert (Ca' : climb q ma a s).
  { unfold q. apply climb_upd; [exact Ca|]. intros m Hm (s' & C'). destruct (climb_fun _ _ _ _ Cx _ _ C'). lia. }
  assert (Rxq : reaches q x s).
  { eapply reaches_step; [exact Qx|]. now apply (climb_reaches q ma). }
  assert (FW : forall i t, reaches p i t -> reaches q i t).
  { intros i t R. induction R as [i E|i j t E R IH].
    - destruct (Nat.eq_dec i x) as [->|N]; [congruence|]. apply reaches_end. now rewrite Qo.
    - destruct (Nat.eq_dec i x) as [->|N].
      + assert (t = s). { eapply reaches_fun; [|exact Rx]. eapply reaches_step; eauto. } subst. exact Rxq.
      + eapply reaches_step; [rewrite Qo; eauto|exact IH]. }
  assert (D : forall i, nth_error q i = Some (-1) <-> nth_error p i = Some (-1)).
  { intros i. destruct (Nat.eq_dec i x) as [->|N]; [|now rewrite Qo].
    rewrite Qx. split; [intros [= E]; lia|]. intros E. exfalso.
    destruct (reaches_active _ _ _ Rx) as (z & Hz & Nz). congruence. }
  assert (BW : forall i t, reaches q i t -> reaches p i t).
  { intros i t R. assert (A : active p i).
    { destruct (reaches_active _ _ _ R) as (z & Hz & Nz).
      destruct (Nat.eq_dec i x) as [->|N]; [now apply (reaches_active p x s)|]. rewrite Qo in Hz by exact N. exists z; auto. }
    destruct (good_active_reaches p i G A) as (t0 & R0).
    pose proof (reaches_fun q i t0 (FW _ _ R0) t R). now subst. }
  split.
  - split; [unfold q; now rewrite upd_length|]. split; [exact D|]. intros; split; auto.
  - split.
    + intros i z Hz Nz. unfold q at 1. rewrite upd_length.
      destruct (Nat.eq_dec i x) as [->|N].
      * rewrite Qx in Hz. injection Hz as <-. rewrite Nat2Z.id.
        destruct (reaches_active _ _ _ Ra) as (w & Hw & Nw).
        assert (a < length p)%nat by (apply nth_error_Some; congruence).
        split; [lia|]. rewrite D. congruence.
      * rewrite Qo in Hz by exact N. destruct (proj1 G i z Hz Nz) as [R W]. split; [exact R|]. rewrite D. exact W.
    + intros i z Hz Nz. destruct (Nat.eq_dec i x) as [->|N]; [eauto|].
      rewrite Qo in Hz by exact N. destruct (proj2 G i z Hz Nz) as (r & R). eauto.
Qed.

Lemma np_get_nat {A} (p : list A) (x : nat) : (x < length p)%nat -> np_get p (Z.of_nat x) = nth_error p x.
Proof. intros H. unfold np_get. rewrite np_idx_pos by lia. now rewrite Nat2Z.id. Qed.

Lemma np_set_nat {A} (p : list A) (x : nat) v : (x < length p)%nat -> np_set p (Z.of_nat x) v = Some (upd p x v).
Proof. intros H. unfold np_set. rewrite np_idx_pos by lia. now rewrite Nat2Z.id. Qed.

Lemma lt_active p i : active p i -> (i < length p)%nat.
Proof. intros (x & Hx & _). apply nth_error_Some. congruence. Qed.

Lemma find_root_spec fuel : forall p x r k, good_pointers p -> climb p k x r -> (k < fuel)%nat ->
  exists p', find_root fuel p (Z.of_nat x) = Done (p', Z.of_nat r) /\ same_forest p p' /\ good_pointers p'.
Proof.
  induction fuel as [|fuel IH]; intros p x r k G C Hf; [lia|]. cbn [find_root].
  pose proof (lt_active p x (reaches_active _ _ _ (climb_reaches _ _ _ _ C))) as Hx.
  inversion C as [i E|k' i j r' E N C']; subst.
  - rewrite np_get_nat by exact Hx. rewrite E. cbn [oget obind]. rewrite Z.eqb_refl.
    exists p. split; [reflexivity|]. split; [apply same_forest_refl|exact G].
  - rewrite np_get_nat by exact Hx. rewrite E. cbn [oget obind].
    replace (Z.of_nat x =? Z.of_nat j) with false by lia.
    pose proof (lt_active p j (reaches_active _ _ _ (climb_reaches _ _ _ _ C'))) as Hj.
    rewrite np_get_nat by exact Hj.
    destruct (good_ptr p j G (reaches_active _ _ _ (climb_reaches _ _ _ _ C'))) as (a & Ea).
    rewrite Ea. cbn [oget obind]. rewrite np_set_nat by exact Hx. cbn [oget obind].
    rewrite np_get_nat by now rewrite upd_length.
    rewrite nth_error_upd, Nat.eqb_refl. replace (Nat.ltb x (length p)) with true by lia. cbn [andb oget obind].
    assert (HA : exists m, climb p m a r /\ (m <= k')%nat).
    { inversion C' as [i' E'|k'' i' j' r'' E' N' C'']; subst.
      - assert (a = r) by (eapply ptr_inj; eauto). subst. exists 0%nat. split; [exact C'|lia].
      - assert (a = j') by (eapply ptr_inj; eauto). subst. exists k''. split; [exact C''|lia]. }
    destruct HA as (m & Ca & Hm).
    destruct (redirect p x a r G (climb_reaches _ _ _ _ C)) as [SF G'].
    + intros E'. apply N. eapply ptr_inj; eauto.
    + eapply climb_reaches; eauto.
    + exists (S k'), m. repeat split; auto. lia.
    + destruct (IH (upd p x (Z.of_nat a)) a r m G') as (p' & F & SF' & G'').
      * apply climb_upd; [exact Ca|]. intros m' Hm' (s' & C0). destruct (climb_fun _ _ _ _ C _ _ C0). lia.
      * lia.
      * exists p'. split; [exact F|]. split; [eapply same_forest_trans; eauto|exact G''].
Qed.

Lemma find_root_nc_spec fuel : forall p x r k, climb p k x r -> (k < fuel)%nat ->
  find_root_nc fuel p (Z.of_nat x) = Done (Z.of_nat r).
Proof.
  induction fuel as [|fuel IH]; intros p x r k C Hf; [lia|]. cbn [find_root_nc].
  pose proof (lt_active p x (reaches_active _ _ _ (climb_reaches _ _ _ _ C))) as Hx.
  rewrite np_get_nat by exact Hx.
  inversion C as [i E|k' i j r' E N C']; subst; rewrite E; cbn [oget obind].
  - now rewrite Z.eqb_refl.
  - replace (Z.of_nat x =? Z.of_nat j) with false by lia. eapply IH; eauto. lia.
Qed.

Theorem find_root_correct fuel p x : good_pointers p -> active p x -> (length p <= fuel)%nat ->
  exists r p', reaches p x r /\ find_root fuel p (Z.of_nat x) = Done (p', Z.of_nat r) /\
    find_root_nc fuel p (Z.of_nat x) = Done (Z.of_nat r) /\
    same_forest p p' /\ good_pointers p'.
Proof.
  intros G A Hf. destruct (good_active_reaches p x G A) as (r & R).
  destruct (reaches_climb p x r R) as (k & C). pose proof (climb_lt_length _ _ _ _ C).
  destruct (find_root_spec fuel p x r k G C ltac:(lia)) as (p' & E & SF & G').
  exists r, p'. split; [exact R|]. split; [exact E|]. split; [|split; [exact SF|exact G']].
  eapply find_root_nc_spec; eauto. lia.
Qed.

(** ** union *)
Lemma link_spec p rx ry : good_pointers p ->
  nth_error p rx = Some (Z.of_nat rx) -> nth_error p ry = Some (Z.of_nat ry) ->
  let q := upd p rx (Z.of_nat ry) in
  good_pointers q /\ length q = length p /\
  (forall i, nth_error q i = Some (-1) <-> nth_error p i = Some (-1)) /\
  (forall i s, reaches p i s -> reaches q i (if Nat.eqb s rx then ry else s)).
Proof.
  intros G Hrx Hry q.
  assert (Lx : (rx < length p)%nat) by (apply nth_error_Some; congruence).
  assert (Ly : (ry < length p)%nat) by (apply nth_error_Some; congruence).
  assert (Qx : nth_error q rx = Some (Z.of_nat ry)).
  { unfold q. rewrite nth_error_upd, Nat.eqb_refl. replace (Nat.ltb rx (length p)) with true by lia. reflexivity. }
  assert (Qo : forall i, i <> rx -> nth_error q i = nth_error p i).
  { intros i Hi. unfold q. rewrite nth_error_upd. replace (Nat.eqb rx i) with false by lia. reflexivity. }
  assert (Ry : reaches q ry ry).
  { apply reaches_end. destruct (Nat.eq_dec ry rx) as [->|N]; [exact Qx|now rewrite Qo]. }
  assert (Rx : reaches q rx ry) by (eapply reaches_step; eauto).
  assert (FW : forall i s, reaches p i s -> reaches q i (if Nat.eqb s rx then ry else s)).
  { intros i s R. induction R as [i E|i j s E R IH].
    - destruct (Nat.eqb_spec i rx) as [->|N]; [exact Rx|]. apply reaches_end. now rewrite Qo.
    - destruct (Nat.eq_dec i rx) as [->|N].
      + assert (j = rx) by (eapply ptr_inj; eauto). subst.
        pose proof (reaches_fun p rx rx (reaches_end p rx Hrx) s R). subst. now rewrite Nat.eqb_refl.
      + eapply reaches_step; [rewrite Qo; eauto|exact IH]. }
  assert (D : forall i, nth_error q i = Some (-1) <-> nth_error p i = Some (-1)).
  { intros i. destruct (Nat.eq_dec i rx) as [->|N]; [|now rewrite Qo].
    rewrite Qx, Hrx. split; intros [= E]; lia. }
  split; [|split; [unfold q; now rewrite upd_length|split; [exact D|exact FW]]].
  split.
  - intros i z Hz Nz. unfold q at 1. rewrite upd_length.
    destruct (Nat.eq_dec i rx) as [->|N].
    + rewrite Qx in Hz. injection Hz as <-. rewrite Nat2Z.id. split; [lia|]. rewrite D, Hry. intros [= E]. lia.
    + rewrite Qo in Hz by exact N. destruct (proj1 G i z Hz Nz) as [R W]. split; [exact R|]. rewrite D. exact W.
  - intros i z Hz Nz. destruct (Nat.eq_dec i rx) as [->|N]; [eauto|].
    rewrite Qo in Hz by exact N. destruct (proj2 G i z Hz Nz) as (r & R). eauto.
Qed.

Lemma same_forest_active p q i : same_forest p q -> active p i -> active q i.
Proof.
  intros (L & D & _) A. pose proof (lt_active p i A). destruct A as (x & Hx & N).
  exists (nth i q (-1)). assert (nth_error q i = Some (nth i q (-1))) by (apply nth_error_nth_lt; lia).
  split; [exact H0|]. intros E. rewrite E in H0. apply D in H0. congruence.
Qed.

Theorem union_correct fuel p x y : good_pointers p -> active p x -> active p y -> (length p <= fuel)%nat ->
  exists q rx ry, union fuel p (Z.of_nat x) (Z.of_nat y) = Done q /\
    reaches p x rx /\ reaches p y ry /\ good_pointers q /\ length q = length p /\
    (forall i, active q i <-> active p i) /\
    (forall i s, reaches p i s -> reaches q i (if Nat.eqb s rx then ry else s)) /\
    (forall i, nth_error q i = Some (Z.of_nat i) <-> nth_error p i = Some (Z.of_nat i) /\ (i <> rx \/ rx = ry)).
Proof.
  intros G Ax Ay Hf.
  destruct (find_root_correct fuel p x G Ax Hf) as (rx & p1 & Rx & E1 & _ & SF1 & G1).
  assert (Ay1 : active p1 y) by (eapply same_forest_active; eauto).
  destruct SF1 as (L1 & D1 & R1).
  destruct (find_root_correct fuel p1 y G1 Ay1 ltac:(lia)) as (ry & p2 & Ry & E2 & _ & (L2 & D2 & R2) & G2).
  assert (Rx2 : reaches p2 x rx) by (apply R2, R1; exact Rx).
  assert (Ry2 : reaches p2 y ry) by (apply R2; exact Ry).
  pose proof (reaches_root _ _ _ Rx2) as Hrx. pose proof (reaches_root _ _ _ Ry2) as Hry.
  destruct (link_spec p2 rx ry G2 Hrx Hry) as (G3 & L3 & D3 & R3).
  assert (Lx : (rx < length p2)%nat) by (apply nth_error_Some; congruence).
  exists (upd p2 rx (Z.of_nat ry)), rx, ry. unfold union. rewrite E1. cbn [obind]. rewrite E2. cbn [obind].
  rewrite np_set_nat by exact Lx. cbn [oget].
  assert (DD : forall i, nth_error (upd p2 rx (Z.of_nat ry)) i = Some (-1) <-> nth_error p i = Some (-1)).
  { intros i. rewrite D3, D2, D1. reflexivity. }
  assert (Lq : length (upd p2 rx (Z.of_nat ry)) = length p) by congruence.
  assert (RT : forall i, nth_error p2 i = Some (Z.of_nat i) <-> nth_error p i = Some (Z.of_nat i)).
  { intros i. split; intros H.
    - assert (reaches p i i) as HR by (apply R1, R2; now constructor). now apply reaches_root in HR.
    - assert (reaches p2 i i) as HR by (apply R2, R1; now constructor). now apply reaches_root in HR. }
  split; [reflexivity|]. split; [exact Rx|]. split; [now apply R1|]. split; [exact G3|].
  split; [exact Lq|]. split; [|split].
  - intros i. split; intros (z & Hz & N).
    + assert (Hi : (i < length p)%nat) by (rewrite <- Lq; apply nth_error_Some; congruence).
      exists (nth i p (-1)). pose proof (nth_error_nth_lt p i (-1) Hi). split; [exact H|].
      intros E. rewrite E in H. apply DD in H. congruence.
    + assert (Hi : (i < length (upd p2 rx (Z.of_nat ry)))%nat) by (rewrite Lq; apply nth_error_Some; congruence).
      exists (nth i (upd p2 rx (Z.of_nat ry)) (-1)). pose proof (nth_error_nth_lt _ i (-1) Hi).
      split; [exact H|]. intros E. rewrite E in H. apply DD in H. congruence.
  - intros i s R. apply R3. apply R2, R1. exact R.
  - intros i. rewrite nth_error_upd. destruct (Nat.eqb_spec rx i) as [<-|N].
    + replace (Nat.ltb rx (length p2)) with true by lia. cbn [andb]. split.
      * intros [= E]. assert (ry = rx) by lia. subst. split; [now apply RT|now right].
      * intros [_ [C|C]]; [congruence|]. subst. reflexivity.
    + cbn [andb]. rewrite RT. intuition congruence.
Qed.

(** ** Histories *)
Definition same_root (p : list Z) (i j : nat) : Prop := exists r, reaches p i r /\ reaches p j r.

Lemma connected_mono E F x y : incl E F -> connected E x y -> connected F x y.
Proof. intros H. induction 1; eauto using connected. Qed.

(** The invariant carried by histories. *)
Definition uf_inv (E : list (nat * nat)) (p : list Z) : Prop :=
  good_pointers p /\ (forall i, (i < length p)%nat -> active p i) /\
  (forall x y, In (x, y) E -> (x < length p)%nat /\ (y < length p)%nat) /\
  (forall i j, (i < length p)%nat -> (j < length p)%nat -> (same_root p i j <-> connected E i j)).

Lemma uf_inv_forest E p q : uf_inv E p -> same_forest p q -> good_pointers q -> uf_inv E q.
Proof.
  intros (G & A & B & C) (L & D & R) G'. split; [exact G'|]. split; [|split].
  - intros i Hi. eapply same_forest_active; [split; [exact L|split; eauto]|]. apply A. lia.
  - rewrite L. exact B.
  - intros i j Hi Hj. rewrite <- C by lia. unfold same_root.
    split; intros (r & R1 & R2); exists r; split; apply R; auto.
Qed.

Lemma uf_inv_union E p q x y rx ry : uf_inv E p -> (x < length p)%nat -> (y < length p)%nat ->
  reaches p x rx -> reaches p y ry -> good_pointers q -> length q = length p ->
  (forall i, active q i <-> active p i) ->
  (forall i s, reaches p i s -> reaches q i (if Nat.eqb s rx then ry else s)) ->
  uf_inv (E ++ [(x, y)]) q.
Proof.
  intros (G & A & B & C) Hx Hy Rx Ry G' L AA FW. split; [exact G'|]. split; [intros i Hi; apply AA, A; lia|].
  split.
  { intros u v H. rewrite L. apply in_app_or in H as [H|[[= <- <-]|[]]]; auto. }
  assert (EXT : forall u v, connected E u v -> connected (E ++ [(x, y)]) u v).
  { intros u v. apply connected_mono. intros z Hz. apply in_or_app. now left. }
  assert (EDGE : connected (E ++ [(x, y)]) x y) by (apply conn_edge, in_or_app; right; now left).
  assert (TO : forall i s, (i < length p)%nat -> reaches p i s ->
     connected E i s /\ (s < length p)%nat).
  { intros i s Hi R. pose proof (reaches_root _ _ _ R) as Hr.
    assert (s < length p)%nat by (apply nth_error_Some; congruence). split; [|exact H].
    apply C; [exact Hi|exact H|]. exists s. split; [exact R|now constructor]. }
  intros i j Hi Hj. rewrite L in Hi, Hj.
  destruct (good_active_reaches p i G (A i Hi)) as (si & Ri).
  destruct (good_active_reaches p j G (A j Hj)) as (sj & Rj).
  assert (ROOT : forall i s, (i < length p)%nat -> reaches p i s ->
     connected (E ++ [(x, y)]) i (if Nat.eqb s rx then ry else s)).
  { intros i0 s0 Hi0 R0. destruct (TO i0 s0 Hi0 R0) as [T _]. destruct (Nat.eqb_spec s0 rx) as [->|N]; [|now apply EXT].
    eapply conn_trans; [apply EXT; exact T|].
    eapply conn_trans; [apply conn_sym, EXT; exact (proj1 (TO x rx Hx Rx))|].
    eapply conn_trans; [exact EDGE|]. apply EXT. exact (proj1 (TO y ry Hy Ry)). }
  split.
  - intros (r & R1 & R2).
    pose proof (reaches_fun q i _ (FW _ _ Ri) _ R1) as E1. pose proof (reaches_fun q j _ (FW _ _ Rj) _ R2) as E2.
    eapply conn_trans; [exact (ROOT i si Hi Ri)|]. rewrite E1, <- E2. apply conn_sym. exact (ROOT j sj Hj Rj).
  - intros CN.
    assert (KEY : forall u v, connected (E ++ [(x, y)]) u v ->
       u = v \/ ((u < length p)%nat /\ (v < length p)%nat /\
       forall a b, reaches p u a -> reaches p v b ->
       (if Nat.eqb a rx then ry else a) = (if Nat.eqb b rx then ry else b))).
    { intros u v H. induction H as [u|u v H|u v H IH|u v w H1 IH1 H2 IH2].
      - now left.
      - right. apply in_app_or in H as [H|[[= <- <-]|[]]].
        + destruct (B u v H) as [Hu Hv]. split; [exact Hu|]. split; [exact Hv|]. intros a b Ra Rb.
          destruct (proj2 (C u v Hu Hv) (conn_edge _ _ _ H)) as (r & Ru & Rv).
          rewrite (reaches_fun p u a Ra r Ru), (reaches_fun p v b Rb r Rv). reflexivity.
        + split; [exact Hx|]. split; [exact Hy|]. intros a b Ra Rb.
          rewrite (reaches_fun p x a Ra rx Rx), (reaches_fun p y b Rb ry Ry), Nat.eqb_refl.
          destruct (Nat.eqb ry rx); reflexivity.
      - destruct IH as [->|(Hu & Hv & K)]; [now left|]. right. split; [exact Hv|]. split; [exact Hu|].
        intros a b Ra Rb. symmetry. now apply K.
      - destruct IH1 as [->|(Hu & Hv & K)]; [exact IH2|]. destruct IH2 as [<-|(Hv' & Hw & K')]; [right; auto|].
        right. split; [exact Hu|]. split; [exact Hw|]. intros a b Ra Rb.
        destruct (good_active_reaches p v G (A v Hv)) as (c & Rc). rewrite (K a c Ra Rc). now apply K'. }
    destruct (KEY i j CN) as [->|(_ & _ & K)].
    + eexists. split; eapply FW; eauto.
    + exists (if Nat.eqb si rx then ry else si). split; [now apply FW|]. rewrite (K si sj Ri Rj). now apply FW.
Qed.

Theorem run_plain_correct fuel ops : forall E p, uf_inv E p -> (length p <= fuel)%nat ->
  Forall (op_below (length p)) ops ->
  exists q, run_plain fuel ops p = Done q /\ length q = length p /\ uf_inv (E ++ pairs ops) q.
Proof.
  induction ops as [|[x y|x] t IH]; intros E p I Hf HB; simpl.
  - exists p. rewrite app_nil_r. auto.
  - inversion HB as [|? ? HX HB']; subst. destruct HX as [Hx Hy]. pose proof I as (G & A & B & C).
    destruct (union_correct fuel p x y G (A x Hx) (A y Hy) Hf) as (q & rx & ry & E1 & Rx & Ry & G' & L & AA & FW & _).
    rewrite E1. cbn [obind].
    pose proof (uf_inv_union E p q x y rx ry I Hx Hy Rx Ry G' L AA FW) as I'.
    destruct (IH (E ++ [(x, y)]) q I' ltac:(lia)) as (q' & E2 & L2 & I2); [now rewrite L|].
    exists q'. rewrite <- app_assoc in I2. split; [exact E2|]. split; [congruence|exact I2].
  - inversion HB as [|? ? Hx HB']; subst. cbn [op_below] in Hx. pose proof I as (G & A & B & C).
    destruct (find_root_correct fuel p x G (A x Hx) Hf) as (r & p1 & R & E1 & _ & SF & G1).
    rewrite E1. cbn [obind]. pose proof (proj1 SF) as L.
    destruct (IH E p1 (uf_inv_forest E p p1 I SF G1) ltac:(lia)) as (q' & E2 & L2 & I2); [now rewrite L|].
    exists q'. split; [exact E2|]. split; [congruence|exact I2].
Qed.

(** Identity array: everything is its own root. *)
Definition identity (n : nat) : list Z := map Z.of_nat (seq 0 n).

Lemma identity_nth n i : (i < n)%nat -> nth_error (identity n) i = Some (Z.of_nat i).
Proof.
  intros H. unfold identity. rewrite nth_error_map, (nth_error_nth_lt _ i 0%nat) by now rewrite seq_length.
  now rewrite seq_nth.
Qed.

Lemma identity_length n : length (identity n) = n.
Proof. unfold identity. now rewrite map_length, seq_length. Qed.

Lemma identity_reaches n i r : reaches (identity n) i r -> i = r.
Proof.
  induction 1 as [|i j r E R IH]; [reflexivity|].
  assert (i < n)%nat by (rewrite <- (identity_length n); apply nth_error_Some; congruence).
  rewrite identity_nth in E by exact H. injection E as E. lia.
Qed.

Lemma connected_nil x y : connected [] x y -> x = y.
Proof. induction 1; auto; [contradiction|congruence]. Qed.

Lemma identity_inv n : uf_inv [] (identity n).
Proof.
  assert (A : forall i, (i < n)%nat -> active (identity n) i).
  { intros i Hi. exists (Z.of_nat i). split; [now apply identity_nth|lia]. }
  split; [|split; [|split]].
  - split.
    + intros i x Hx N. assert (i < n)%nat by (rewrite <- (identity_length n); apply nth_error_Some; congruence).
      rewrite identity_nth in Hx by exact H. injection Hx as <-. rewrite identity_length, Nat2Z.id.
      split; [lia|]. rewrite identity_nth by exact H. intros [= E]. lia.
    + intros i x Hx N. assert (i < n)%nat by (rewrite <- (identity_length n); apply nth_error_Some; congruence).
      exists i. constructor. now apply identity_nth.
  - intros i Hi. rewrite identity_length in Hi. auto.
  - intros x y [].
  - intros i j Hi Hj. rewrite identity_length in Hi, Hj. split.
    + intros (r & R1 & R2). apply identity_reaches in R1, R2. subst. constructor.
    + intros H. apply connected_nil in H. subst. exists j. split; constructor; now apply identity_nth.
Qed.

Theorem union_find_history n ops fuel : (n <= fuel)%nat -> Forall (op_below n) ops ->
  exists p, run_plain fuel ops (identity n) = Done p /\ length p = n /\
  forall i j, (i < n)%nat -> (j < n)%nat ->
    exists ri rj, find_root_nc fuel p (Z.of_nat i) = Done (Z.of_nat ri) /\
      find_root_nc fuel p (Z.of_nat j) = Done (Z.of_nat rj) /\
      (exists p', find_root fuel p (Z.of_nat i) = Done (p', Z.of_nat ri) /\ same_forest p p') /\
      (ri = rj <-> connected (pairs ops) i j) /\ connected (pairs ops) i ri.
Proof.
  intros Hf HB.
  destruct (run_plain_correct fuel ops [] (identity n) (identity_inv n)) as (p & E & L & G & A & B & C).
  - now rewrite identity_length.
  - now rewrite identity_length.
  - rewrite identity_length in L. exists p. split; [exact E|]. split; [exact L|]. intros i j Hi Hj.
    destruct (find_root_correct fuel p i G (A i ltac:(lia)) ltac:(lia)) as (ri & pi & Ri & F1 & N1 & SF & _).
    destruct (find_root_correct fuel p j G (A j ltac:(lia)) ltac:(lia)) as (rj & pj & Rj & F2 & N2 & _ & _).
    exists ri, rj. split; [exact N1|]. split; [exact N2|]. split; [|split; [split|]].
    + exists pi. split; [exact F1|exact SF].
    + intros <-. apply C; [lia|lia|]. exists ri. auto.
    + intros H. destruct (proj2 (C i j ltac:(lia) ltac:(lia)) H) as (r & R1 & R2).
      rewrite (reaches_fun p i ri Ri r R1). symmetry. eapply reaches_fun; eauto.
    + pose proof (reaches_root _ _ _ Ri) as H. apply C; [lia|apply nth_error_Some; congruence|].
      exists ri. split; [exact Ri|now constructor].
Qed.

(** ** UnionFind object *)
Lemma extend_length p h : length (extend_to p h) = Nat.max (length p) (S h).
Proof. unfold extend_to. rewrite app_length, map_length, seq_length. lia. Qed.

Lemma extend_nth_old p h i : (i < length p)%nat -> nth_error (extend_to p h) i = nth_error p i.
Proof. intros H. unfold extend_to. now apply nth_error_app1. Qed.

Lemma extend_nth_new p h i : (length p <= i <= h)%nat -> nth_error (extend_to p h) i = Some (Z.of_nat i).
Proof.
  intros H. unfold extend_to. rewrite nth_error_app2 by lia.
  rewrite nth_error_map, (nth_error_nth_lt _ _ 0%nat) by (rewrite seq_length; lia).
  rewrite seq_nth by lia. cbn [option_map]. do 2 f_equal. lia.
Qed.

Lemma extend_inv E p h : uf_inv E p -> uf_inv E (extend_to p h).
Proof.
  intros (G & A & B & C).
  assert (R0 : forall i r, (i < length p)%nat -> reaches p i r -> reaches (extend_to p h) i r).
  { intros i r Hi R. induction R as [i E0|i j r E0 R IH].
    - constructor. now rewrite extend_nth_old.
    - eapply reaches_step; [rewrite extend_nth_old; eauto|]. apply IH. now apply (good_range p i j).
  }
  assert (R1 : forall i, (length p <= i <= h)%nat -> reaches (extend_to p h) i i).
  { intros i Hi. constructor. now apply extend_nth_new. }
  assert (LT : forall i, (i < length (extend_to p h))%nat -> (i < length p)%nat \/ (length p <= i <= h)%nat).
  { intros i. rewrite extend_length. lia. }
  split; [|split; [|split]].
  - split.
    + intros i x Hx N. rewrite extend_length.
      destruct (LT i) as [Hi|Hi]; [apply nth_error_Some; congruence| |].
      * rewrite extend_nth_old in Hx by exact Hi. destruct (proj1 G i x Hx N) as [R W].
        split; [lia|]. rewrite extend_nth_old by lia. exact W.
      * rewrite extend_nth_new in Hx by exact Hi. injection Hx as <-. split; [lia|].
        rewrite Nat2Z.id, extend_nth_new by exact Hi. intros [= H]. lia.
    + intros i x Hx N. destruct (LT i) as [Hi|Hi]; [apply nth_error_Some; congruence| |eauto].
      rewrite extend_nth_old in Hx by exact Hi. destruct (proj2 G i x Hx N) as (r & R). eauto.
  - intros i Hi. destruct (LT i Hi) as [H|H].
    + destruct (A i H) as (x & Hx & N). exists x. rewrite extend_nth_old by exact H. auto.
    + exists (Z.of_nat i). rewrite extend_nth_new by exact H. split; [reflexivity|lia].
  - intros x y H. destruct (B x y H). rewrite extend_length. lia.
  - intros i j Hi Hj.
    assert (NC : forall u v, connected E u v -> u = v \/ ((u < length p)%nat /\ (v < length p)%nat)).
    { intros u v H. induction H as [u|u v H|u v H IH|u v w H1 IH1 H2 IH2]; intuition (subst; auto).
      }
    assert (RO : forall u, (u < length (extend_to p h))%nat -> exists r, reaches (extend_to p h) u r /\
        (((u < length p)%nat /\ (r < length p)%nat /\ reaches p u r) \/ ((length p <= u)%nat /\ u = r))).
    { intros u Hu. destruct (LT u Hu) as [H|H].
      - destruct (good_active_reaches p u G (A u H)) as (r & R). exists r. split; [now apply R0|]. left.
        pose proof (reaches_root _ _ _ R). repeat split; auto. apply nth_error_Some. congruence.
      - exists u. split; [now apply R1|]. right. lia. }
    destruct (RO i Hi) as (ri & Ri & CI). destruct (RO j Hj) as (rj & Rj & CJ).
    split.
    + intros (r & S1 & S2). pose proof (reaches_fun _ _ _ Ri _ S1). pose proof (reaches_fun _ _ _ Rj _ S2). subst ri rj.
      destruct CI as [(A1 & A2 & A3)|(A1 & A2)], CJ as [(B1 & B2 & B3)|(B1 & B2)]; subst; try lia; [|constructor].
      apply C; auto. exists r. auto.
    + intros H. destruct (NC i j H) as [->|[H1 H2]]; [exists rj; auto|].
      destruct (proj2 (C i j H1 H2) H) as (r & S1 & S2). exists r. split; now apply R0.
Qed.

(** A [find_root] on a [UnionFind] object needs a known index; otherwise IndexError. *)
Fixpoint finds_known (n : nat) (ops : list uf_op) : Prop :=
  match ops with
  | [] => True
  | OpUnion x y :: t => finds_known (Nat.max n (S (Nat.max x y))) t
  | OpFind x :: t => (x < n)%nat /\ finds_known n t
  end.

Fixpoint final_size (n : nat) (ops : list uf_op) : nat :=
  match ops with
  | [] => n
  | OpUnion x y :: t => final_size (Nat.max n (S (Nat.max x y))) t
  | OpFind x :: t => final_size n t
  end.

Lemma final_size_ge n ops : (n <= final_size n ops)%nat.
Proof.
  revert n. induction ops as [|[x y|x] t IH]; intros n; cbn [final_size]; auto.
  etransitivity; [|apply IH]. lia.
Qed.

Theorem run_uf_correct fuel ops : forall E p, uf_inv E p -> (final_size (length p) ops <= fuel)%nat ->
  finds_known (length p) ops ->
  exists q, run_uf fuel ops p = Done q /\ length q = final_size (length p) ops /\ uf_inv (E ++ pairs ops) q.
Proof.
  induction ops as [|[x y|x] t IH]; intros E p I Hf HB; cbn [run_uf pairs final_size finds_known] in *.
  - exists p. rewrite app_nil_r. auto.
  - unfold uf_union. set (p0 := extend_to p (Nat.max x y)) in *.
    assert (I0 : uf_inv E p0) by now apply extend_inv. pose proof I0 as (G & A & B & C).
    assert (L0 : length p0 = Nat.max (length p) (S (Nat.max x y))) by apply extend_length.
    pose proof (final_size_ge (Nat.max (length p) (S (Nat.max x y))) t) as FS.
    destruct (union_correct fuel p0 x y G (A x ltac:(lia)) (A y ltac:(lia)) ltac:(lia)) as (q & rx & ry & E1 & Rx & Ry & G' & L & AA & FW & _).
    rewrite E1. cbn [obind].
    pose proof (uf_inv_union E p0 q x y rx ry I0 ltac:(lia) ltac:(lia) Rx Ry G' L AA FW) as I'.
    destruct (IH (E ++ [(x, y)]) q I') as (q' & E2 & L2 & I2); [congruence|now rewrite L, L0|].
    exists q'. rewrite <- app_assoc in I2. split; [exact E2|]. split; [congruence|exact I2].
  - destruct HB as [Hx HB]. pose proof I as (G & A & B & C). pose proof (final_size_ge (length p) t).
    unfold uf_find. destruct (find_root_correct fuel p x G (A x Hx) ltac:(lia)) as (r & p1 & R & E1 & _ & SF & G1).
    rewrite E1. cbn [obind]. pose proof (proj1 SF) as L.
    destruct (IH E p1 (uf_inv_forest E p p1 I SF G1)) as (q' & E2 & L2 & I2); [now rewrite L|now rewrite L|].
    exists q'. split; [exact E2|]. split; [congruence|exact I2].
Qed.

(** ** compress_roots, groups *)
Lemma compress_loop_spec fuel order : forall p new, good_pointers p -> length new = length p ->
  (length p <= fuel)%nat -> (forall i, In i order -> (i < length p)%nat) ->
  exists q, compress_loop fuel order p new = Done q /\ length q = length p /\
  forall i, (i < length p)%nat ->
    (In i order -> (nth_error p i = Some (-1) -> nth_error q i = Some (-1)) /\
                   (forall r, reaches p i r -> nth_error q i = Some (Z.of_nat r))) /\
    (~ In i order -> nth_error q i = nth_error new i).
Proof.
  induction order as [|o rest IH]; intros p new G HL Hf HO; cbn [compress_loop].
  - exists new. split; [reflexivity|]. split; [exact HL|]. intros i Hi. split; [intros []|reflexivity].
  - assert (Ho : (o < length p)%nat) by (apply HO; now left).
    assert (HO' : forall i, In i rest -> (i < length p)%nat) by (intros i Hi; apply HO; now right).
    rewrite np_get_nat by exact Ho.
    assert (Ep : nth_error p o = Some (nth o p (-1))) by now apply nth_error_nth_lt.
    rewrite Ep. cbn [oget obind].
    destruct (Z.eqb_spec (nth o p (-1)) (-1)) as [EQ|NE].
    + destruct (IH p (upd new o (-1)) G) as (q & E & L & H); [now rewrite upd_length|exact Hf|exact HO'|].
      exists q. split; [exact E|]. split; [exact L|]. intros i Hi. destruct (H i Hi) as [H1 H2]. split.
      * intros Hio. destruct (in_dec Nat.eq_dec i rest) as [Hin|Hin]; [now apply H1|].
        assert (i = o) as -> by (destruct Hio; [auto|contradiction]). split.
        -- intros _. rewrite H2 by exact Hin. rewrite nth_error_upd, Nat.eqb_refl.
           replace (Nat.ltb o (length new)) with true by lia. reflexivity.
        -- intros r R. destruct (reaches_active _ _ _ R) as (z & Hz & Nz). congruence.
      * intros Hin. rewrite H2 by (intros X; apply Hin; now right). rewrite nth_error_upd.
        replace (Nat.eqb o i) with false; [reflexivity|]. symmetry. apply Nat.eqb_neq. intros ->. apply Hin. now left.
    + assert (Ao : active p o) by (exists (nth o p (-1)); auto).
      destruct (good_ptr p o G Ao) as (c & Ec). rewrite Ec in Ep. injection Ep as Ep. rewrite <- Ep.
      destruct (good_range p o c G Ec) as [Hc Ac].
      destruct (find_root_correct fuel p c G Ac Hf) as (r & p' & R & F & _ & SF & G').
      rewrite F. cbn [obind]. pose proof SF as (L' & D' & R').
      destruct (IH p' (upd new o (Z.of_nat r)) G') as (q & E & L & H); [rewrite upd_length; congruence|lia|intros i Hi; rewrite L'; auto|].
      exists q. split; [exact E|]. split; [congruence|]. intros i Hi. rewrite L' in H. destruct (H i Hi) as [H1 H2]. split.
      * intros Hio. destruct (in_dec Nat.eq_dec i rest) as [Hin|Hin].
        -- destruct (H1 Hin) as [H1a H1b]. split; [intros X; apply H1a; now apply D'|intros r' X; apply H1b; now apply R'].
        -- assert (i = o) as -> by (destruct Hio; [auto|contradiction]). split; [intros X; congruence|].
           intros r' X. rewrite H2 by exact Hin. rewrite nth_error_upd, Nat.eqb_refl.
           replace (Nat.ltb o (length new)) with true by lia. cbn [andb]. do 2 f_equal.
           eapply reaches_fun; [|exact X]. eapply reaches_step; eauto.
      * intros Hin. rewrite H2 by (intros X; apply Hin; now right). rewrite nth_error_upd.
        replace (Nat.eqb o i) with false; [reflexivity|]. symmetry. apply Nat.eqb_neq. intros ->. apply Hin. now left.
Qed.

Theorem compress_roots_correct fuel order p : good_pointers p -> (length p <= fuel)%nat ->
  (forall i, In i order <-> (i < length p)%nat) ->
  exists q, compress_roots fuel order p = Done q /\ length q = length p /\
  forall i, (i < length p)%nat ->
    (nth_error p i = Some (-1) -> nth_error q i = Some (-1)) /\
    (forall r, reaches p i r -> nth_error q i = Some (Z.of_nat r)).
Proof.
  intros G Hf HO. unfold compress_roots.
  destruct (compress_loop_spec fuel order p (repeat 0 (length p)) G) as (q & E & L & H).
  - apply repeat_length.
  - exact Hf.
  - intros i. apply HO.
  - exists q. split; [exact E|]. split; [exact L|]. intros i Hi. apply (H i Hi). now apply HO.
Qed.

(** Groups of a [UnionFind] object: exactly the connected components. *)
Theorem uf_groups_correct fuel order E p : uf_inv E p -> (length p <= fuel)%nat ->
  (forall i, In i order <-> (i < length p)%nat) ->
  exists gs, uf_groups fuel order p = Done gs /\
  (forall g, In g gs -> exists i, In i g) /\
  (forall i, (i < length p)%nat -> exists g, In g gs /\ In i g) /\
  (forall g i, In g gs -> In i g -> forall j, In j g <-> (j < length p)%nat /\ connected E i j).
Proof.
  intros (G & A & B & C) Hf HO.
  destruct (compress_roots_correct fuel order p G Hf HO) as (q & Eq & L & H).
  unfold uf_groups. rewrite Eq. cbn [obind]. eexists. split; [reflexivity|].
  assert (N : forall i, (i < length p)%nat -> exists r, reaches p i r /\ nth i q (-1) = Z.of_nat r).
  { intros i Hi. destruct (good_active_reaches p i G (A i Hi)) as (r & R). exists r. split; [exact R|].
    apply nth_error_nth. now apply (H i Hi). }
  assert (M : forall r i, In i (filter (fun i => nth i q (-1) =? r) (seq 0 (length q))) <-> (i < length p)%nat /\ nth i q (-1) = r).
  { intros r i. rewrite filter_In, in_seq, Z.eqb_eq, L. split; intros [X Y]; split; auto; lia. }
  split; [|split].
  - intros g Hg. apply in_map_iff in Hg as (r & <- & Hr). apply (proj1 (np_unique_in q r)) in Hr.
    apply (In_nth q r (-1)) in Hr as (i & Hi & Er). exists i. apply M. rewrite L in Hi. auto.
  - intros i Hi. exists (filter (fun j => nth j q (-1) =? nth i q (-1)) (seq 0 (length q))). split.
    + apply in_map_iff. exists (nth i q (-1)). split; [reflexivity|]. apply np_unique_in. apply nth_In. lia.
    + apply M. auto.
  - intros g i Hg Hi j. apply in_map_iff in Hg as (r & <- & Hr). apply M in Hi as [Hi Ei]. rewrite M.
    split; intros [Hj X]; split; auto.
    + destruct (N i Hi) as (a & Ra & Ea), (N j Hj) as (b & Rb & Eb).
      apply C; auto. exists a. assert (a = b) by lia. subst b. auto.
    + destruct (proj2 (C i j Hi Hj) X) as (s & S1 & S2).
      destruct (N i Hi) as (a & Ra & Ea), (N j Hj) as (b & Rb & Eb).
      assert (a = s) by (eapply reaches_fun; eauto). assert (b = s) by (eapply reaches_fun; eauto). lia.
Qed.

(** ** union_w_roots: the mask marks the roots *)
Theorem union_w_roots_correct fuel p x y mask : good_pointers p -> active p x -> active p y ->
  (length p <= fuel)%nat -> length mask = length p ->
  exists q rx ry mask', union_w_roots fuel p (Z.of_nat x) (Z.of_nat y) mask = Done (q, mask') /\
    union fuel p (Z.of_nat x) (Z.of_nat y) = Done q /\
    reaches p x rx /\ reaches p y ry /\ length mask' = length mask /\
    (forall i, nth_error mask' i =
       if Nat.eqb i ry then Some true else if Nat.eqb i rx then Some false else nth_error mask i) /\
    ((forall i, nth i mask false = true -> nth_error p i = Some (Z.of_nat i)) ->
     (forall i, nth i mask' false = true -> nth_error q i = Some (Z.of_nat i))).
Proof.
  intros G Ax Ay Hf Hm.
  destruct (union_correct fuel p x y G Ax Ay Hf) as (q & rx & ry & E & Rx & Ry & G' & L & AA & FW & RT).
  pose proof (reaches_root _ _ _ Rx) as Hrx. pose proof (reaches_root _ _ _ Ry) as Hry.
  assert (Lx : (rx < length mask)%nat) by (rewrite Hm; apply nth_error_Some; congruence).
  assert (Ly : (ry < length mask)%nat) by (rewrite Hm; apply nth_error_Some; congruence).
  unfold union_w_roots. pose proof E as EU. unfold union in E.
  destruct (find_root fuel p (Z.of_nat x)) as [[p1 rx0]| |] eqn:F1; cbn [obind] in *; try discriminate.
  destruct (find_root fuel p1 (Z.of_nat y)) as [[p2 ry0]| |] eqn:F2; cbn [obind] in *; try discriminate.
  assert (rx0 = Z.of_nat rx).
  { destruct (find_root_correct fuel p x G Ax Hf) as (r & p1' & R & E1 & _). rewrite E1 in F1.
    injection F1 as <- <-. f_equal. eapply reaches_fun; eauto. }
  assert (ry0 = Z.of_nat ry).
  { destruct (find_root_correct fuel p x G Ax Hf) as (r & p1' & R & E1 & _ & SF & G1). rewrite E1 in F1.
    injection F1 as <- <-. pose proof SF as (L1 & _ & RR).
    destruct (find_root_correct fuel p1' y G1) as (r2 & p2' & R2 & E2 & _); [eapply same_forest_active; eauto|lia|].
    rewrite E2 in F2. injection F2 as <- <-. f_equal. apply RR in R2. eapply reaches_fun; eauto. }
  subst rx0 ry0. rewrite E. cbn [obind].
  rewrite np_get_nat by exact Lx. rewrite (nth_error_nth_lt mask rx false) by exact Lx. cbn [oget obind].
  set (mask1 := if nth rx mask false then upd mask rx false else mask).
  assert (E1 : (if nth rx mask false then oget (np_set mask (Z.of_nat rx) false) else Done mask) = Done mask1).
  { unfold mask1. destruct (nth rx mask false); [now rewrite np_set_nat by exact Lx|reflexivity]. }
  rewrite E1. cbn [obind].
  assert (Lm1 : length mask1 = length mask) by (unfold mask1; destruct (nth rx mask false); [apply upd_length|reflexivity]).
  assert (N1 : forall i, nth_error mask1 i = if Nat.eqb i rx then Some false else nth_error mask i).
  { intros i. unfold mask1. destruct (nth rx mask false) eqn:Em.
    - rewrite nth_error_upd. destruct (Nat.eqb_spec rx i) as [<-|N].
      + rewrite Nat.eqb_refl. replace (Nat.ltb rx (length mask)) with true by lia. reflexivity.
      + replace (Nat.eqb i rx) with false by lia. reflexivity.
    - destruct (Nat.eqb_spec i rx) as [->|N]; [|reflexivity].
      rewrite (nth_error_nth_lt mask rx false) by exact Lx. now rewrite Em. }
  rewrite np_get_nat by lia. rewrite (nth_error_nth_lt mask1 ry false) by lia. cbn [oget obind].
  set (mask2 := if negb (nth ry mask1 false) then upd mask1 ry true else mask1).
  assert (E2 : (if negb (nth ry mask1 false) then oget (np_set mask1 (Z.of_nat ry) true) else Done mask1) = Done mask2).
  { unfold mask2. destruct (nth ry mask1 false); [reflexivity|]. cbn [negb]. now rewrite np_set_nat by lia. }
  rewrite E2. cbn [obind].
  assert (N2 : forall i, nth_error mask2 i = if Nat.eqb i ry then Some true else if Nat.eqb i rx then Some false else nth_error mask i).
  { intros i. rewrite <- N1. unfold mask2. destruct (nth ry mask1 false) eqn:Em; cbn [negb].
    - destruct (Nat.eqb_spec i ry) as [->|N]; [|reflexivity].
      rewrite (nth_error_nth_lt mask1 ry false) by lia. now rewrite Em.
    - rewrite nth_error_upd. destruct (Nat.eqb_spec ry i) as [<-|N].
      + rewrite Nat.eqb_refl. replace (Nat.ltb ry (length mask1)) with true by lia. reflexivity.
      + replace (Nat.eqb i ry) with false by lia. reflexivity. }
  exists q, rx, ry, mask2. split; [reflexivity|]. split; [exact EU|]. split; [exact Rx|]. split; [exact Ry|].
  split; [|split; [exact N2|]].
  - unfold mask2. destruct (negb (nth ry mask1 false)); rewrite ?upd_length; exact Lm1.
  - intros HM i Hi. apply RT.
    assert (NN : nth_error mask2 i = Some true).
    { rewrite (nth_error_nth_lt mask2 i false); [now rewrite Hi|].
      destruct (Nat.lt_ge_cases i (length mask2)); [auto|]. rewrite nth_overflow in Hi by lia. discriminate. }
    rewrite N2 in NN. destruct (Nat.eqb_spec i ry) as [->|N].
    + split; [exact Hry|]. destruct (Nat.eq_dec ry rx); auto.
    + destruct (Nat.eqb_spec i rx) as [->|N']; [discriminate|]. split; [|auto].
      apply HM. now apply nth_error_nth.
Qed.

(** ** Histories of union_w_roots *)
Definition mentioned (E : list (nat * nat)) (e : nat) : Prop :=
  exists x y, In (x, y) E /\ (e = x \/ e = y).

Definition mask_inv (E : list (nat * nat)) (p : list Z) (mask : list bool) : Prop :=
  length mask = length p /\
  forall i, nth i mask false = true <-> nth_error p i = Some (Z.of_nat i) /\ exists e, mentioned E e /\ reaches p e i.

Lemma run_mask_inv fuel req : forall E p mask, uf_inv E p -> mask_inv E p mask -> (length p <= fuel)%nat ->
  (forall x y, In (x, y) req -> (x < length p)%nat /\ (y < length p)%nat) ->
  exists q m, run_mask fuel req p mask = Done (q, m) /\ length q = length p /\ uf_inv (E ++ req) q /\ mask_inv (E ++ req) q m.
Proof.
  induction req as [|[x y] t IH]; intros E p mask I M Hf HB; cbn [run_mask].
  - exists p, mask. rewrite app_nil_r. auto.
  - destruct (HB x y (or_introl eq_refl)) as [Hx Hy]. pose proof I as (G & A & B & C). destruct M as [ML MM].
    destruct (union_w_roots_correct fuel p x y mask G (A x Hx) (A y Hy) Hf ML) as (q & rx & ry & m & E1 & E2 & Rx & Ry & Lm & Nm & _).
    destruct (union_correct fuel p x y G (A x Hx) (A y Hy) Hf) as (q' & rx' & ry' & E3 & Rx' & Ry' & G' & L & AA & FW & RT).
    rewrite E2 in E3. injection E3 as <-.
    assert (rx' = rx) by (eapply reaches_fun; eauto). assert (ry' = ry) by (eapply reaches_fun; eauto). subst rx' ry'.
    pose proof (reaches_root _ _ _ Rx) as Hrx. pose proof (reaches_root _ _ _ Ry) as Hry.
    pose proof (uf_inv_union E p q x y rx ry I Hx Hy Rx Ry G' L AA FW) as I'.
    rewrite E1. cbn [obind].
    assert (M' : mask_inv (E ++ [(x, y)]) q m).
    { split; [congruence|]. intros i.
      assert (NM : nth i m false = true <-> nth_error m i = Some true).
      { split; intros H.
        - rewrite (nth_error_nth_lt m i false); [now rewrite H|].
          destruct (Nat.lt_ge_cases i (length m)); [auto|]. rewrite nth_overflow in H by lia. discriminate.
        - now apply nth_error_nth. }
      assert (NM0 : nth i mask false = true <-> nth_error mask i = Some true).
      { split; intros H.
        - rewrite (nth_error_nth_lt mask i false); [now rewrite H|].
          destruct (Nat.lt_ge_cases i (length mask)); [auto|]. rewrite nth_overflow in H by lia. discriminate.
        - now apply nth_error_nth. }
      assert (ME : forall e, mentioned E e -> mentioned (E ++ [(x, y)]) e).
      { intros e (u & v & Hi & He). exists u, v. split; [apply in_or_app; now left|exact He]. }
      rewrite NM, Nm. destruct (Nat.eqb_spec i ry) as [->|N1].
      - split; [|reflexivity]. intros _. split.
        + apply RT. split; [exact Hry|]. destruct (Nat.eq_dec ry rx); auto.
        + exists y. split; [exists x, y; split; [apply in_or_app; right; now left|now right]|].
          pose proof (FW _ _ Ry) as K. destruct (Nat.eqb ry rx); exact K.
      - destruct (Nat.eqb_spec i rx) as [->|N2].
        + split; [discriminate|]. intros [K _]. apply RT in K as [_ [K|K]]; congruence.
        + rewrite <- NM0, MM. rewrite RT. split.
          * intros [K (e & Me & Re)]. split; [auto|]. exists e. split; [auto|].
            pose proof (FW _ _ Re) as K2. replace (Nat.eqb i rx) with false in K2 by lia. exact K2.
          * intros [[K _] (e & (u & v & Hi & He) & Re)]. split; [exact K|].
            assert (He' : (e < length p)%nat).
            { rewrite <- L. eapply lt_active, reaches_active, Re. }
            destruct (good_active_reaches p e G (A e He')) as (s & Rs).
            pose proof (reaches_fun _ _ _ (FW _ _ Rs) _ Re) as Es.
            destruct (Nat.eqb_spec s rx) as [->|N3]; [congruence|]. subst s.
            apply in_app_or in Hi as [Hi|[[= <- <-]|[]]].
            -- exists e. split; [exists u, v; auto|exact Rs].
            -- destruct He as [->| ->].
               ++ exfalso. apply N3. exact (reaches_fun _ _ _ Rs _ Rx).
               ++ exfalso. apply N1. exact (reaches_fun _ _ _ Rs _ Ry). }
    destruct (IH (E ++ [(x, y)]) q m I' M' ltac:(lia)) as (q2 & m2 & F & L2 & I2 & M2).
    { intros u v Hi. rewrite L. apply HB. now right. }
    exists q2, m2. rewrite <- app_assoc in I2, M2. split; [exact F|]. split; [congruence|]. split; [exact I2|exact M2].
Qed.

Theorem union_w_roots_history n req fuel : (n <= fuel)%nat ->
  (forall x y, In (x, y) req -> (x < n)%nat /\ (y < n)%nat) ->
  exists p m, run_mask fuel req (identity n) (repeat false n) = Done (p, m) /\ length m = n /\
  (forall i, (i < n)%nat -> nth i m false = true <->
     find_root_nc fuel p (Z.of_nat i) = Done (Z.of_nat i) /\ mentioned req i) /\
  (forall e, mentioned req e -> exists r, find_root_nc fuel p (Z.of_nat e) = Done (Z.of_nat r) /\
     nth r m false = true /\ connected req e r) /\
  (forall i j, (i < n)%nat -> (j < n)%nat -> nth i m false = true -> nth j m false = true ->
     connected req i j -> i = j).
Proof.
  intros Hf HB. 
  assert (M0 : mask_inv [] (identity n) (repeat false n)).
  { split; [now rewrite repeat_length, identity_length|]. intros i. split.
    - intros H. exfalso. rewrite nth_repeat in H. discriminate.
    - intros (_ & e & (x & y & [] & _) & _). }
  destruct (run_mask_inv fuel req [] (identity n) (repeat false n) (identity_inv n) M0) as (p & m & E & L & I & ML & MM).
  { now rewrite identity_length. }
  { now rewrite identity_length. }
  cbn [app] in *. rewrite identity_length in L. pose proof I as (G & A & B & C).
  exists p, m. split; [exact E|]. split; [congruence|].
  assert (FR : forall i, (i < n)%nat -> exists r, reaches p i r /\ find_root_nc fuel p (Z.of_nat i) = Done (Z.of_nat r)).
  { intros i Hi. destruct (find_root_correct fuel p i G (A i ltac:(lia)) ltac:(lia)) as (r & p1 & R & _ & F & _). eauto. }
  assert (RM : forall e, mentioned req e -> (e < n)%nat).
  { intros e (x & y & Hi & He). apply HB in Hi. destruct He; subst; tauto. }
  split; [|split].
  - intros i Hi. rewrite MM. destruct (FR i Hi) as (r & R & F). split.
    + intros [Hroot (e & Me & Re)].
      assert (r = i) by (eapply reaches_fun; [exact R|now constructor]). subst r. split; [exact F|].
      destruct (Nat.eq_dec e i) as [->|N]; [exact Me|].
      assert (CE : connected req e i).
      { apply C; [rewrite L; auto|lia|]. exists i. auto. }
      clear -CE N. assert (K : e = i \/ (mentioned req e /\ mentioned req i)).
      { clear N. induction CE as [z|a b H|a b H IH|a b c H1 IH1 H2 IH2].
        - now left.
        - right. split; exists a, b; auto.
        - intuition.
        - intuition (subst; auto). }
      destruct K as [K|[_ K]]; [congruence|exact K].
    + intros [F' Me]. rewrite F in F'. injection F' as F'. assert (r = i) by lia. subst r.
      split; [now apply reaches_root in R|]. eauto.
  - intros e Me. destruct (FR e (RM e Me)) as (r & R & F). exists r. split; [exact F|]. split.
    + apply MM. split; [now apply reaches_root in R|eauto].
    + assert (Hr : (r < length p)%nat) by (apply nth_error_Some; rewrite (reaches_root _ _ _ R); discriminate).
      apply C; [rewrite L; auto|exact Hr|]. exists r. split; [exact R|]. constructor. now apply reaches_root in R.
  - intros i j Hi Hj Mi Mj CN. apply C in CN; [|lia|lia]. destruct CN as (r & R1 & R2).
    apply MM in Mi as [Mi _]. apply MM in Mj as [Mj _].
    rewrite (reaches_fun _ _ _ (reaches_end p i Mi) _ R1).
    now rewrite (reaches_fun _ _ _ (reaches_end p j Mj) _ R2).
Qed.

(** A whole UnionFind history followed by [groups]. *)
Theorem uf_object_history fuel ops order : (final_size 1 ops <= fuel)%nat -> finds_known 1 ops ->
  (forall i, In i order <-> (i < final_size 1 ops)%nat) ->
  exists q gs, run_uf fuel ops uf_init = Done q /\ length q = final_size 1 ops /\
  uf_groups fuel order q = Done gs /\
  (forall g, In g gs -> exists i, In i g) /\
  (forall i, (i < final_size 1 ops)%nat -> exists g, In g gs /\ In i g) /\
  (forall g i, In g gs -> In i g -> forall j, In j g <-> (j < final_size 1 ops)%nat /\ connected (pairs ops) i j).
Proof.
  intros Hf HK HO.
  destruct (run_uf_correct fuel ops [] uf_init (identity_inv 1) Hf HK) as (q & E & L & I).
  cbn [length uf_init] in L. cbn [app] in I.
  destruct (uf_groups_correct fuel order (pairs ops) q I) as (gs & Eg & G1 & G2 & G3).
  { rewrite L. exact Hf. }
  { intros i. rewrite L. apply HO. }
  exists q, gs. rewrite L in *. split; [exact E|]. split; [reflexivity|]. split; [exact Eg|]. split; [exact G1|]. split; [exact G2|exact G3].
Qed.

Theorem unseen_find_raises fuel ops q x :
  run_uf fuel ops uf_init = Done q -> (length q <= x)%nat -> uf_find (S fuel) q x = Raised.
Proof.
  intros _ H. unfold uf_find. cbn [find_root].
  assert (np_get q (Z.of_nat x) = None) as ->; [|reflexivity].
  unfold np_get, np_idx. replace (0 <=? Z.of_nat x) with true by lia.
  replace (Z.of_nat x <? Z.of_nat (length q)) with false by lia. cbn [andb].
  replace (- Z.of_nat (length q) <=? Z.of_nat x) with true by lia.
  replace (Z.of_nat x <? 0) with false by lia. reflexivity.
Qed.
