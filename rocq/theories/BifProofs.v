(** The groups found at a value are the connected components of the basins joined at
    or above it. *)
From Coq Require Import QArith Sorting.Sorted Lqa.
From Verif Require Import Base GridModel NeighModel RootsModel RootsSpec RootsProofs UnionModel UnionSpec UnionProofs
  BifModel BifSpec.
Local Open Scope Z_scope.

Lemma NoDup_app_iff2 {A} (l l' : list A) : NoDup l -> NoDup l' -> (forall x, In x l -> ~ In x l') -> NoDup (l ++ l').
Proof.
  induction l as [|a l IH]; intros H1 H2 H3; [exact H2|]. inversion H1; subst. cbn. constructor.
  - rewrite in_app_iff. intros [X|X]; [contradiction|]. apply (H3 a); [now left|exact X].
  - apply IH; auto. intros x Hx. apply H3. now right.
Qed.
Lemma NoDup_map_inj_in {A B} (f : A -> B) l : NoDup l ->
  (forall x y, In x l -> In y l -> f x = f y -> x = y) -> NoDup (map f l).
Proof.
  induction 1 as [|a l H1 H2 IH]; intros H; [constructor|]. cbn. constructor.
  - intros X. apply in_map_iff in X as (y & E & Hy). apply H1.
    rewrite <- (H y a); [exact Hy|now right|now left|exact E].
  - apply IH. intros x y Hx Hy. apply H; now right.
Qed.

(** ** Partial union-find: only the mentioned basins are active *)
Definition part_inv (E : list (nat * nat)) (p : list Z) : Prop :=
  good_pointers p /\ (forall i, active p i <-> mentioned E i) /\
  (forall i j, active p i -> active p j -> (same_root p i j <-> connected E i j)).

Lemma mentioned_incl E F b : incl E F -> mentioned E b -> mentioned F b.
Proof. intros H (c & [X|X]); exists c; [left|right]; auto. Qed.

Lemma connected_mentioned E x y : connected E x y -> x = y \/ (mentioned E x /\ mentioned E y).
Proof.
  induction 1 as [x|x y H|x y H IH|x y z H1 IH1 H2 IH2].
  - now left.
  - right. split; [exists y; now left|exists x; now right].
  - destruct IH as [->|[A B]]; auto.
  - destruct IH1 as [->|[A B]]; [exact IH2|]. destruct IH2 as [<-|[C D]]; auto.
Qed.

Lemma part_inv_equiv E F p : incl E F -> incl F E -> part_inv E p -> part_inv F p.
Proof.
  intros H1 H2 (G & A & C). split; [exact G|]. split.
  - intros i. rewrite A. split; apply mentioned_incl; auto.
  - intros i j Ai Aj. rewrite C by auto. split; apply connected_mono; auto.
Qed.

Lemma part_inv_forest E p q : part_inv E p -> same_forest p q -> good_pointers q -> part_inv E q.
Proof.
  intros (G & A & C) (L & D & R) G'.
  assert (AA : forall i, active q i <-> active p i).
  { intros i. split; intros (x & Hx & N).
    - destruct (good_active_reaches q i G') as (r & Hr); [exists x; auto|]. apply R in Hr. eapply reaches_active; eauto.
    - destruct (good_active_reaches p i G) as (r & Hr); [exists x; auto|]. apply R in Hr. eapply reaches_active; eauto. }
  split; [exact G'|]. split; [intros i; rewrite AA; apply A|].
  intros i j Hi Hj. rewrite <- C by now apply AA. unfold same_root.
  split; intros (r & R1 & R2); exists r; split; apply R; auto.
Qed.

Lemma nth_active p b : (b < length p)%nat -> active p b <-> nth b p (-1) <> -1.
Proof.
  intros H. pose proof (nth_error_nth_lt p b (-1) H) as E. split.
  - intros (x & Hx & N). rewrite E in Hx. injection Hx as <-. exact N.
  - intros N. exists (nth b p (-1)). auto.
Qed.

(** Making an inactive basin its own root. *)
Lemma assign_self_inv E p b : part_inv E p -> (b < length p)%nat ->
  part_inv (E ++ [(b, b)]) (assign_self p b) /\ length (assign_self p b) = length p /\
  active (assign_self p b) b.
Proof.
  intros I Hb. pose proof I as (G & A & C).
  assert (INC : incl E (E ++ [(b, b)])) by (intros z Hz; apply in_or_app; now left).
  assert (MEN : forall i, mentioned (E ++ [(b, b)]) i <-> mentioned E i \/ i = b).
  { intros i. split.
    - intros (c & [H|H]); apply in_app_or in H as [H|[[= -> ->]|[]]]; auto; left; exists c; auto.
    - intros [H| ->]; [eapply mentioned_incl; eauto|]. exists b. left. apply in_or_app. right. now left. }
  assert (CON : forall i j, connected (E ++ [(b, b)]) i j <-> connected E i j).
  { intros i j. split; [|now apply connected_mono].
    induction 1 as [x|x y H|x y H IH|x y z H1 IH1 H2 IH2].
    - constructor.
    - apply in_app_or in H as [H|[[= -> ->]|[]]]; [now apply conn_edge|constructor].
    - now apply conn_sym.
    - eapply conn_trans; eauto. }
  unfold assign_self. destruct (Z.eqb_spec (nth b p (-1)) (-1)) as [E0|N].
  2:{ split; [|split; [reflexivity|now apply nth_active]]. split; [exact G|]. split.
      - intros i. rewrite MEN, A. split; [now left|]. intros [H| ->]; [exact H|]. apply A. now apply nth_active.
      - intros i j Hi Hj. rewrite CON. now apply C. }
  set (q := upd p b (Z.of_nat b)).
  assert (NA : ~ active p b) by (rewrite nth_active by exact Hb; congruence).
  assert (Qb : nth_error q b = Some (Z.of_nat b)).
  { unfold q. rewrite nth_error_upd, Nat.eqb_refl. replace (Nat.ltb b (length p)) with true by lia. reflexivity. }
  assert (Qo : forall i, i <> b -> nth_error q i = nth_error p i).
  { intros i Hi. unfold q. rewrite nth_error_upd. now replace (Nat.eqb b i) with false by lia. }
  assert (L : length q = length p) by apply upd_length.
  assert (F1 : forall i r, reaches p i r -> reaches q i r).
  { intros i r R. induction R as [i H|i j r H R IH].
    - constructor. rewrite Qo; [exact H|]. intros ->. apply NA. exists (Z.of_nat b). split; [exact H|lia].
    - apply reaches_step with j; [|exact IH]. rewrite Qo; [exact H|]. intros ->.
      apply NA. exists (Z.of_nat j). split; [exact H|lia]. }
  assert (AQ : forall i, active q i <-> active p i \/ i = b).
  { intros i. destruct (Nat.eq_dec i b) as [->|N].
    - split; [now right|]. intros _. exists (Z.of_nat b). split; [exact Qb|lia].
    - unfold active. rewrite Qo by exact N. split; [now left|]. intros [H|H]; [exact H|contradiction]. }
  assert (RB : reaches q b b) by now constructor.
  assert (GQ : good_pointers q).
  { split.
    - intros i x Hx N. destruct (Nat.eq_dec i b) as [->|Ni].
      + rewrite Qb in Hx. injection Hx as <-. rewrite Nat2Z.id. split; [lia|]. rewrite Qb. intros [= X]. lia.
      + rewrite Qo in Hx by exact Ni. destruct (proj1 G i x Hx N) as [Rg P]. split; [lia|].
        destruct (Nat.eq_dec (Z.to_nat x) b) as [->|Nx]; [rewrite Qb; intros [= X]; lia|]. now rewrite Qo.
    - intros i x Hx N. destruct (Nat.eq_dec i b) as [->|Ni]; [exists b; exact RB|].
      rewrite Qo in Hx by exact Ni. destruct (proj2 G i x Hx N) as (r & R). exists r. now apply F1. }
  split; [|split; [exact L|apply AQ; now right]]. split; [exact GQ|]. split.
  { intros i. rewrite AQ, MEN, A. reflexivity. }
  assert (NB : forall r, reaches q b r -> r = b) by (intros r R; eapply reaches_fun; eauto).
  assert (ROOTB : forall i, active p i -> ~ reaches q i b).
  { intros i Ai R. destruct (good_active_reaches p i G Ai) as (r & Ri).
    pose proof (reaches_fun q i _ (F1 _ _ Ri) _ R) as ->. apply reaches_root in Ri.
    apply NA. exists (Z.of_nat b). split; [exact Ri|lia]. }
  intros i j Hi Hj. rewrite CON. apply AQ in Hi, Hj.
  destruct (Nat.eq_dec i b) as [->|Ni], (Nat.eq_dec j b) as [->|Nj].
  - split; [constructor|]. intros _. exists b; auto.
  - destruct Hj as [Hj|Hj]; [|contradiction]. split.
    + intros (r & R1 & R2). rewrite (NB r R1) in R2. exfalso. now apply (ROOTB j Hj).
    + intros H. apply connected_mentioned in H as [->|[H _]]; [contradiction|]. apply A in H. contradiction.
  - destruct Hi as [Hi|Hi]; [|contradiction]. split.
    + intros (r & R1 & R2). rewrite (NB r R2) in R1. exfalso. now apply (ROOTB i Hi).
    + intros H. apply connected_mentioned in H as [->|[_ H]]; [contradiction|]. apply A in H. contradiction.
  - destruct Hi as [Hi|Hi]; [|contradiction]. destruct Hj as [Hj|Hj]; [|contradiction]. rewrite <- C by auto.
    destruct (good_active_reaches p i G Hi) as (ri & Ri). destruct (good_active_reaches p j G Hj) as (rj & Rj). split.
    + intros (r & R1 & R2). exists ri. split; [exact Ri|].
      rewrite (reaches_fun q i _ (F1 _ _ Ri) _ R1), <- (reaches_fun q j _ (F1 _ _ Rj) _ R2). exact Rj.
    + intros (r & R1 & R2). exists r. split; now apply F1.
Qed.

Lemma mentioned_edge E x y i : mentioned E x -> mentioned E y -> mentioned (E ++ [(x, y)]) i <-> mentioned E i.
Proof.
  intros Mx My. split.
  - intros (c & [H|H]); apply in_app_or in H as [H|[[= <- <-]|[]]]; try assumption; exists c; auto.
  - apply mentioned_incl. intros z Hz. apply in_or_app. now left.
Qed.

Lemma part_inv_union E p q x y rx ry : part_inv E p -> active p x -> active p y ->
  reaches p x rx -> reaches p y ry -> good_pointers q ->
  (forall i, active q i <-> active p i) ->
  (forall i s, reaches p i s -> reaches q i (if Nat.eqb s rx then ry else s)) ->
  part_inv (E ++ [(x, y)]) q.
Proof.
  intros (G & A & C) Hx Hy Rx Ry G' AA FW. split; [exact G'|]. split.
  { intros i. rewrite AA, A. symmetry. apply mentioned_edge; now apply A. }
  assert (EXT : forall u v, connected E u v -> connected (E ++ [(x, y)]) u v).
  { intros u v. apply connected_mono. intros z Hz. apply in_or_app. now left. }
  assert (EDGE : connected (E ++ [(x, y)]) x y) by (apply conn_edge, in_or_app; right; now left).
  assert (TO : forall i s, reaches p i s -> connected E i s).
  { intros i s R. pose proof (reaches_root _ _ _ R) as Hr. apply C.
    - eapply reaches_active; eauto.
    - exists (Z.of_nat s). split; [exact Hr|lia].
    - exists s. split; [exact R|now constructor]. }
  intros i j Hi Hj. apply AA in Hi, Hj.
  destruct (good_active_reaches p i G Hi) as (si & Ri).
  destruct (good_active_reaches p j G Hj) as (sj & Rj).
  assert (ROOT : forall i s, reaches p i s -> connected (E ++ [(x, y)]) i (if Nat.eqb s rx then ry else s)).
  { intros i0 s0 R0. pose proof (TO i0 s0 R0) as T. destruct (Nat.eqb_spec s0 rx) as [->|N]; [|now apply EXT].
    eapply conn_trans; [apply EXT; exact T|].
    eapply conn_trans; [apply conn_sym, EXT; exact (TO x rx Rx)|].
    eapply conn_trans; [exact EDGE|]. apply EXT. exact (TO y ry Ry). }
  split.
  - intros (r & R1 & R2).
    pose proof (reaches_fun q i _ (FW _ _ Ri) _ R1) as E1. pose proof (reaches_fun q j _ (FW _ _ Rj) _ R2) as E2.
    eapply conn_trans; [exact (ROOT i si Ri)|]. rewrite E1, <- E2. apply conn_sym. exact (ROOT j sj Rj).
  - intros CN.
    assert (KEY : forall u v, connected (E ++ [(x, y)]) u v ->
       u = v \/ (active p u /\ active p v /\
       forall a b, reaches p u a -> reaches p v b ->
       (if Nat.eqb a rx then ry else a) = (if Nat.eqb b rx then ry else b))).
    { intros u v H. induction H as [u|u v H|u v H IH|u v w H1 IH1 H2 IH2].
      - now left.
      - right. apply in_app_or in H as [H|[[= <- <-]|[]]].
        + assert (Hu : active p u) by (apply A; exists v; now left).
          assert (Hv : active p v) by (apply A; exists u; now right).
          split; [exact Hu|]. split; [exact Hv|]. intros a b Ra Rb.
          destruct (proj2 (C u v Hu Hv) (conn_edge _ _ _ H)) as (r & Ru & Rv).
          rewrite (reaches_fun p u a Ra r Ru), (reaches_fun p v b Rb r Rv). reflexivity.
        + split; [exact Hx|]. split; [exact Hy|]. intros a b Ra Rb.
          rewrite (reaches_fun p x a Ra rx Rx), (reaches_fun p y b Rb ry Ry), Nat.eqb_refl.
          destruct (Nat.eqb ry rx); reflexivity.
      - destruct IH as [->|(Hu & Hv & K)]; [now left|]. right. split; [exact Hv|]. split; [exact Hu|].
        intros a b Ra Rb. symmetry. now apply K.
      - destruct IH1 as [->|(Hu & Hv & K)]; [exact IH2|]. destruct IH2 as [<-|(Hv' & Hw & K')]; [right; auto|].
        right. split; [exact Hu|]. split; [exact Hw|]. intros a b Ra Rb.
        destruct (good_active_reaches p v G Hv) as (c & Rc). rewrite (K a c Ra Rc). now apply K'. }
    destruct (KEY i j CN) as [->|(_ & _ & K)].
    + eexists. split; eapply FW; eauto.
    + exists (if Nat.eqb si rx then ry else si). split; [now apply FW|]. rewrite (K si sj Ri Rj). now apply FW.
Qed.

(** An edge between basins already connected changes nothing. *)
Lemma part_inv_same E p x y : part_inv E p -> active p x -> active p y -> same_root p x y ->
  part_inv (E ++ [(x, y)]) p.
Proof.
  intros (G & A & C) Hx Hy S. split; [exact G|]. split.
  { intros i. rewrite A. symmetry. apply mentioned_edge; now apply A. }
  intros i j Hi Hj. rewrite C by auto. split.
  - apply connected_mono. intros z Hz. apply in_or_app. now left.
  - induction 1 as [u|u v H|u v H IH|u v w H1 IH1 H2 IH2] in Hi, Hj |- *.
    + constructor.
    + apply in_app_or in H as [H|[[= <- <-]|[]]]; [now apply conn_edge|]. now apply C.
    + apply conn_sym. now apply IH.
    + destruct (connected_mentioned _ _ _ H1) as [->|[_ M]]; [now apply IH2|].
      apply mentioned_edge in M; [|now apply A|now apply A]. apply A in M.
      eapply conn_trans; [now apply IH1|now apply IH2].
Qed.

Lemma connect1_correct fuel E p i j : part_inv E p -> (i < length p)%nat -> (j < length p)%nat ->
  (length p <= fuel)%nat ->
  exists q, connect1 fuel p i j = Done q /\ length q = length p /\ part_inv (E ++ [(i, j)]) q.
Proof.
  intros I Hi Hj Hf.
  destruct (assign_self_inv E p i I Hi) as (I1 & L1 & A1). set (p1 := assign_self p i) in *.
  assert (Hj1 : (j < length p1)%nat) by lia.
  destruct (assign_self_inv _ p1 j I1 Hj1) as (I2 & L2 & A2). unfold connect1. fold p1.
  set (p2 := assign_self p1 j) in *.
  set (E2 := (E ++ [(i, i)]) ++ [(j, j)]) in *.
  assert (EQV : incl (E2 ++ [(i, j)]) (E2 ++ [(i, j)]) ) by (intros z Hz; exact Hz).
  pose proof I2 as (G2 & AC2 & C2).
  assert (A1' : active p2 i).
  { apply AC2. exists i. left. unfold E2. apply in_or_app. left. apply in_or_app. right. now left. }
  destruct (find_root_correct fuel p2 i G2 A1' ltac:(lia)) as (ri & q1 & Ri & F1 & _ & SF1 & GQ1).
  rewrite F1. cbn [obind].
  pose proof (part_inv_forest _ _ _ I2 SF1 GQ1) as J1.
  assert (Aj1 : active q1 j) by (eapply same_forest_active; eauto).
  assert (Ai1 : active q1 i) by (eapply same_forest_active; eauto).
  pose proof (proj1 SF1) as LQ1.
  destruct (find_root_correct fuel q1 j GQ1 Aj1 ltac:(lia)) as (rj & q2 & Rj & F2 & _ & SF2 & GQ2).
  rewrite F2. cbn [obind].
  pose proof (part_inv_forest _ _ _ J1 SF2 GQ2) as J2.
  assert (Aj2 : active q2 j) by (eapply same_forest_active; eauto).
  assert (Ai2 : active q2 i) by (eapply same_forest_active; eauto).
  pose proof (proj1 SF2) as LQ2.
  assert (BACK : forall q, part_inv (E2 ++ [(i, j)]) q -> part_inv (E ++ [(i, j)]) q).
  { intros q (Gq & Aq & Cq).
    assert (M0 : forall b, mentioned (E2 ++ [(i, j)]) b <-> mentioned (E ++ [(i, j)]) b).
    { intros b. unfold E2. split.
      - intros (c & [H|H]); rewrite !in_app_iff in H;
          destruct H as [[[H|[[= <- <-]|[]]]|[[= <- <-]|[]]]|[[= <- <-]|[]]];
          try (exists c; rewrite in_app_iff; auto; fail);
          try (exists j; left; apply in_or_app; right; now left);
          try (exists i; right; apply in_or_app; right; now left);
          try (exists c; rewrite !in_app_iff; tauto).
      - apply mentioned_incl. intros z Hz. rewrite !in_app_iff in *. tauto. }
    assert (C0 : forall u v, connected (E2 ++ [(i, j)]) u v <-> connected (E ++ [(i, j)]) u v).
    { intros u v. unfold E2. split.
      - induction 1 as [x|x y H|x y H IH|x y z H1 IH1 H2 IH2].
        + constructor.
        + rewrite !in_app_iff in H. destruct H as [[[H|[[= <- <-]|[]]]|[[= <- <-]|[]]]|[[= <- <-]|[]]];
            try constructor; apply in_or_app; [now left|right; now left].
        + now apply conn_sym.
        + eapply conn_trans; eauto.
      - apply connected_mono. intros z Hz. rewrite !in_app_iff in *. tauto. }
    split; [exact Gq|]. split; [intros b; rewrite Aq; apply M0|]. intros a b Ha Hb. rewrite Cq by auto. apply C0. }
  destruct (Z.eqb_spec (Z.of_nat ri) (Z.of_nat rj)) as [Er|Nr].
  - exists q2. split; [reflexivity|]. split; [lia|]. apply BACK. apply part_inv_same; auto.
    exists rj. split; [|now apply SF2]. apply SF2, SF1. replace rj with ri by lia. exact Ri.
  - destruct (union_correct fuel q2 i j GQ2 Ai2 Aj2 ltac:(lia)) as (q & rx & ry & U & Rx & Ry & Gq & Lq & AA & FW & _).
    exists q. split; [exact U|]. split; [lia|]. apply BACK. eapply part_inv_union; eauto.
Qed.

Lemma connect_correct fuel cs : forall E p, part_inv E p ->
  (forall i j v, In (i, j, v) cs -> (i < length p)%nat /\ (j < length p)%nat) -> (length p <= fuel)%nat ->
  exists q, connect fuel cs p = Done q /\ length q = length p /\ part_inv (E ++ map fst cs) q.
Proof.
  induction cs as [|[[i j] v] t IH]; intros E p I H Hf; cbn [connect map fst].
  - exists p. rewrite app_nil_r. auto.
  - destruct (H i j v (or_introl eq_refl)) as [Hi Hj].
    destruct (connect1_correct fuel E p i j I Hi Hj Hf) as (q & E1 & L & I1). rewrite E1. cbn [obind].
    destruct (IH _ q I1) as (q' & E2 & L2 & I2).
    + intros a b w Hw. rewrite L. apply (H a b w). now right.
    + lia.
    + exists q'. split; [exact E2|]. split; [lia|]. rewrite <- app_assoc in I2. exact I2.
Qed.

(** Compression keeps the invariant and makes every active basin point to its root. *)
Lemma compress_inv fuel order E p : part_inv E p -> (length p <= fuel)%nat ->
  (forall i, In i order <-> (i < length p)%nat) ->
  exists q, compress_roots fuel order p = Done q /\ length q = length p /\ part_inv E q /\
  forall i, active q i -> exists r, nth_error q i = Some (Z.of_nat r) /\ nth_error q r = Some (Z.of_nat r).
Proof.
  intros (G & A & C) Hf HO.
  destruct (compress_roots_correct fuel order p G Hf HO) as (q & Eq & L & H).
  exists q. split; [exact Eq|]. split; [exact L|].
  assert (PT : forall i r, reaches p i r -> nth_error q i = Some (Z.of_nat r) /\ nth_error q r = Some (Z.of_nat r)).
  { intros i r R. split; [apply H; [|exact R]; eapply lt_active, reaches_active; eauto|].
    apply H; [|constructor; eapply reaches_root; eauto]. apply nth_error_Some. erewrite reaches_root by eauto. discriminate. }
  assert (AQ : forall i, active q i <-> active p i).
  { intros i. split.
    - intros (x & Hx & N). assert (Hi : (i < length p)%nat) by (rewrite <- L; apply nth_error_Some; congruence).
      apply nth_active; [exact Hi|]. intros E0. apply N. pose proof (nth_error_nth_lt p i (-1) Hi) as E1.
      rewrite E0 in E1. apply (proj1 (H i Hi)) in E1. congruence.
    - intros Ai. destruct (good_active_reaches p i G Ai) as (r & R). exists (Z.of_nat r). split; [now apply PT|lia]. }
  assert (RR : forall i r, reaches p i r -> reaches q i r).
  { intros i r R. destruct (PT i r R) as [P1 P2]. eapply reaches_step; [exact P1|]. now constructor. }
  split.
  - split; [|split].
    + split.
      * intros i x Hx N. assert (Ai : active p i) by (apply AQ; exists x; auto).
        destruct (good_active_reaches p i G Ai) as (r & R). destruct (PT i r R) as [P1 P2].
        rewrite P1 in Hx. injection Hx as <-. rewrite Nat2Z.id. assert (r < length q)%nat by (apply nth_error_Some; congruence).
        split; [lia|]. rewrite P2. intros [= X]. lia.
      * intros i x Hx N. assert (Ai : active p i) by (apply AQ; exists x; auto).
        destruct (good_active_reaches p i G Ai) as (r & R). exists r. now apply RR.
    + intros i. rewrite AQ. apply A.
    + intros i j Hi Hj. apply AQ in Hi, Hj. rewrite <- C by auto.
      destruct (good_active_reaches p i G Hi) as (ri & Ri). destruct (good_active_reaches p j G Hj) as (rj & Rj). split.
      * intros (r & R1 & R2). exists ri. split; [exact Ri|].
        rewrite (reaches_fun q i _ (RR _ _ Ri) _ R1), <- (reaches_fun q j _ (RR _ _ Rj) _ R2). exact Rj.
      * intros (r & R1 & R2). exists r. split; now apply RR.
  - intros i Ai. apply AQ in Ai. destruct (good_active_reaches p i G Ai) as (r & R). exists r. now apply PT.
Qed.

(** ** The groups *)
Definition in_group (p : list Z) (k : nat) (r : nat) : list nat :=
  filter (fun b => nth b p (-1) =? Z.of_nat r) (seq 0 k).

Lemma in_group_S p k r : in_group p (S k) r =
  in_group p k r ++ (if nth k p (-1) =? Z.of_nat r then [k] else []).
Proof. unfold in_group. rewrite seq_S, filter_app. cbn [filter Nat.add]. now destruct (_ =? _). Qed.

Lemma find_groups_fold p : (forall i, active p i -> exists r, nth_error p i = Some (Z.of_nat r) /\ (r < length p)%nat) ->
  forall k, (k <= length p)%nat ->
  exists dgi rs, fold_left (group_step p) (seq 0 k) (repeat (-1) (length p), []) = (dgi, map (in_group p k) rs) /\
    length dgi = length p /\ NoDup rs /\
    (forall r, (r < length p)%nat -> nth r dgi (-1) = -1 <-> ~ In r rs) /\
    (forall m r, nth_error rs m = Some r -> nth r dgi (-1) = Z.of_nat m) /\
    (forall r, In r rs <-> exists b, (b < k)%nat /\ nth b p (-1) = Z.of_nat r).
Proof.
  intros HP k. induction k as [|k IH]; intros Hk.
  { exists (repeat (-1) (length p)), []. split; [reflexivity|]. split; [apply repeat_length|]. split; [constructor|].
    split; [|split].
    - intros r Hr. split; [intros _ []|]. intros _. destruct (nth_in_or_default r (repeat (-1) (length p)) (-1)) as [H|H]; [|exact H].
      now apply repeat_spec in H.
    - intros [|m] r H; discriminate.
    - intros r. split; [intros []|]. intros (b & H & _). lia. }
  destruct (IH ltac:(lia)) as (dgi & rs & E & L & ND & D1 & D2 & D3).
  rewrite seq_S, fold_left_app, E. cbn [fold_left Nat.add]. unfold group_step.
  destruct (Z.eqb_spec (nth k p (-1)) (-1)) as [E0|N].
  - exists dgi, rs. split.
    { f_equal. apply map_ext_in. intros r _. rewrite in_group_S, E0.
      replace (-1 =? Z.of_nat r) with false by lia. now rewrite app_nil_r. }
    repeat (split; [assumption|]). intros r. rewrite D3. split; intros (b & Hb & Eb).
    + exists b. split; [lia|exact Eb].
    + exists b. split; [|exact Eb]. assert (b <> k) by (intros ->; lia). lia.
  - destruct (HP k) as (r0 & Er0 & Hr0); [apply nth_active; [lia|exact N]|].
    apply nth_error_nth with (d := -1) in Er0. rewrite Er0, Nat2Z.id.
    destruct (Z.eqb_spec (nth r0 dgi (-1)) (-1)) as [Ed|Nd].
    + apply D1 in Ed; [|exact Hr0]. exists (upd dgi r0 (Z.of_nat (length rs))), (rs ++ [r0]). rewrite map_length. split.
      { f_equal. rewrite map_app. f_equal.
        - apply map_ext_in. intros r Hr. rewrite in_group_S, Er0.
          replace (Z.of_nat r0 =? Z.of_nat r) with false; [now rewrite app_nil_r|].
          symmetry. apply Z.eqb_neq. intros X. apply Ed. replace r0 with r by lia. exact Hr.
        - cbn [map]. rewrite in_group_S, Er0, Z.eqb_refl.
          replace (in_group p k r0) with (@nil nat); [reflexivity|]. symmetry. unfold in_group.
          assert (Z0 : forall l, (forall b, In b l -> (b < k)%nat) -> filter (fun b => nth b p (-1) =? Z.of_nat r0) l = []).
          { induction l as [|b l IHl]; intros Hl; [reflexivity|]. cbn [filter].
            destruct (Z.eqb_spec (nth b p (-1)) (Z.of_nat r0)) as [X|X].
            - exfalso. apply Ed, D3. exists b. split; [apply Hl; now left|exact X].
            - apply IHl. intros b' Hb'. apply Hl. now right. }
          apply Z0. intros b Hb. apply in_seq in Hb. lia. }
      split; [now rewrite upd_length|]. split.
      { apply NoDup_app_iff2; [exact ND|constructor; [intros []|constructor]|]. intros x Hx [<-|[]]. contradiction. }
      split; [|split].
      * intros r Hr. rewrite nth_upd. rewrite in_app_iff. cbn [In].
        destruct (Nat.eqb_spec r0 r) as [<-|Nr].
        -- replace (Nat.ltb r0 (length dgi)) with true by lia. cbn [andb]. split; [lia|]. intros X. exfalso. apply X. right. now left.
        -- cbn [andb]. rewrite D1 by exact Hr. split; [intros X [Y|[Y|[]]]; [contradiction|congruence]|tauto].
      * intros m r Hm. assert (r < length p)%nat.
        { assert (In r (rs ++ [r0])) by (eapply nth_error_In; eauto). rewrite in_app_iff in H.
          destruct H as [H|[<-|[]]]; [|exact Hr0]. apply D3 in H as (b & Hb & Eb).
          destruct (HP b) as (r' & Er' & Hr'); [apply nth_active; lia|]. apply nth_error_nth with (d := -1) in Er'. lia. }
        rewrite nth_upd. destruct (Nat.eqb_spec r0 r) as [<-|Nr].
        -- replace (Nat.ltb r0 (length dgi)) with true by lia. cbn [andb]. destruct (Nat.lt_ge_cases m (length rs)) as [HL|HL].
           ++ rewrite nth_error_app1 in Hm by exact HL. apply nth_error_In in Hm. contradiction.
           ++ assert (m < length (rs ++ [r0]))%nat by (apply nth_error_Some; congruence). rewrite app_length in H0. simpl in H0. lia.
        -- cbn [andb]. destruct (Nat.lt_ge_cases m (length rs)) as [HL|HL].
           ++ rewrite nth_error_app1 in Hm by exact HL. now apply D2.
           ++ rewrite nth_error_app2 in Hm by exact HL. destruct (m - length rs)%nat as [|d]; [cbn in Hm; congruence|destruct d; discriminate].
      * intros r. rewrite in_app_iff, D3. cbn [In]. split.
        -- intros [(b & Hb & Eb)|[<-|[]]]; [exists b; split; [lia|exact Eb]|]. exists k. split; [lia|exact Er0].
        -- intros (b & Hb & Eb). destruct (Nat.eq_dec b k) as [->|Nb]; [right; left; lia|]. left. exists b. split; [lia|exact Eb].
    + assert (HI : In r0 rs).
      { destruct (in_dec Nat.eq_dec r0 rs) as [H|H]; [exact H|]. exfalso. apply Nd. now apply D1. }
      apply In_nth_error in HI as (m & Hm). rewrite (D2 m r0 Hm), Nat2Z.id. exists dgi, rs. split.
      { f_equal. apply list_ext_nth with (d := []).
        - rewrite upd_length, !map_length. reflexivity.
        - rewrite upd_length, map_length. intros i Hi. rewrite nth_upd.
          assert (Hm' : (m < length rs)%nat) by (apply nth_error_Some; congruence).
          assert (NM : forall k' j, (j < length rs)%nat -> nth j (map (in_group p k') rs) [] = in_group p k' (nth j rs 0%nat)).
          { intros k' j Hj. rewrite (nth_indep _ [] (in_group p k' 0%nat)) by (rewrite map_length; exact Hj). apply map_nth. }
          rewrite !NM by assumption. apply nth_error_nth with (d := 0%nat) in Hm. rewrite in_group_S, Er0.
          rewrite map_length. destruct (Nat.eqb_spec m i) as [<-|Ni].
          + replace (Nat.ltb m (length rs)) with true by lia. cbn [andb]. rewrite Hm, Z.eqb_refl. reflexivity.
          + cbn [andb]. replace (Z.of_nat r0 =? Z.of_nat (nth i rs 0%nat)) with false; [now rewrite app_nil_r|].
            symmetry. apply Z.eqb_neq. intros X. apply Ni. eapply NoDup_nth with (d := 0%nat); eauto; lia. }
      repeat (split; [assumption|]). intros r. rewrite D3. split; intros (b & Hb & Eb).
      * exists b. split; [lia|exact Eb].
      * destruct (Nat.eq_dec b k) as [->|Nb]; [|exists b; split; [lia|exact Eb]].
        apply D3. replace r with r0 by lia. eapply nth_error_In; eauto.
Qed.

Lemma filter_seq_sorted (f : nat -> bool) n : forall k, StronglySorted lt (filter f (seq k n)).
Proof.
  induction n as [|n IH]; intros k; cbn [seq filter]; [constructor|].
  destruct (f k); [|apply IH]. constructor; [apply IH|]. apply Forall_forall. intros x Hx.
  apply filter_In in Hx as [Hx _]. apply in_seq in Hx. lia.
Qed.

Lemma find_groups_correct E p : part_inv E p ->
  (forall i, active p i -> exists r, nth_error p i = Some (Z.of_nat r) /\ nth_error p r = Some (Z.of_nat r)) ->
  components E (find_groups p).
Proof.
  intros (G & A & C) HP. unfold find_groups.
  destruct (find_groups_fold p) with (k := length p) as (dgi & rs & EF & L & ND & D1 & D2 & D3); [|lia|].
  { intros i Ai. destruct (HP i Ai) as (r & R1 & R2). exists r. split; [exact R1|]. apply nth_error_Some. congruence. }
  rewrite EF. cbn [snd].
  assert (RCH : forall b r, nth_error p b = Some (Z.of_nat r) -> reaches p b r).
  { intros b r Hb. destruct (HP b) as (r' & R1 & R2); [exists (Z.of_nat r); split; [exact Hb|lia]|].
    assert (r' = r) as -> by (rewrite Hb in R1; injection R1; lia). eapply reaches_step; [exact Hb|]. now constructor. }
  assert (ING : forall b r, In b (in_group p (length p) r) <-> nth_error p b = Some (Z.of_nat r)).
  { intros b r. unfold in_group. rewrite filter_In, in_seq, Z.eqb_eq. split.
    - intros [Hb Eb]. rewrite (nth_error_nth_lt p b (-1)) by lia. now rewrite Eb.
    - intros Hb. split; [|now apply nth_error_nth]. assert (b < length p)%nat by (apply nth_error_Some; congruence). lia. }
  split; [|split].
  - intros g Hg. apply in_map_iff in Hg as (r & <- & Hr). split; [|split].
    + apply D3 in Hr as (b & Hb & Eb). intros X. assert (Y : In b (in_group p (length p) r)).
      { apply ING. rewrite (nth_error_nth_lt p b (-1)) by exact Hb. now rewrite Eb. }
      rewrite X in Y. destruct Y.
    + apply filter_seq_sorted.
    + intros i Hi. apply ING in Hi. assert (Ai : active p i) by (exists (Z.of_nat r); split; [exact Hi|lia]).
      split; [now apply A|]. intros j. rewrite ING. split.
      * intros Hj. assert (Aj : active p j) by (exists (Z.of_nat r); split; [exact Hj|lia]).
        split; [now apply A|]. apply C; auto. exists r. split; now apply RCH.
      * intros [Mj Cij]. apply A in Mj. apply C in Cij; auto. destruct Cij as (s & S1 & S2).
        destruct (HP j Mj) as (r' & R1 & R2). rewrite R1. f_equal.
        rewrite (reaches_fun p j _ (RCH _ _ R1) _ S2), <- (reaches_fun p i _ (RCH _ _ Hi) _ S1). reflexivity.
  - intros b Mb. apply A in Mb. destruct (HP b Mb) as (r & R1 & R2). exists (in_group p (length p) r). split.
    + apply in_map, D3. exists b. split; [apply nth_error_Some; congruence|]. now apply nth_error_nth.
    + now apply ING.
  - apply NoDup_map_inj_in; [exact ND|]. intros r r' Hr _ Heq. apply D3 in Hr as (b & Hb & Eb).
    assert (H1 : In b (in_group p (length p) r)).
    { apply ING. rewrite (nth_error_nth_lt p b (-1)) by exact Hb. now rewrite Eb. }
    pose proof H1 as H2. rewrite Heq in H2. apply ING in H1, H2. rewrite H1 in H2. injection H2. lia.
Qed.
