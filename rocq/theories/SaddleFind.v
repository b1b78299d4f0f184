(** The saddle tests on a periodic grid. *)
From Coq Require Import QArith.
From Verif Require Import Base GridModel GridProofs NearProofs NeighModel RootsModel RootsSpec RootsProofs UnionModel UnionSpec UnionProofs VaspTop SaddleModel SaddleSpec SaddleBox SaddleProofs SaddleTop.
Local Open Scope Z_scope.

Section Grid.
Variables nx ny nz : Z.
Variable data : arr3 Q.
Variable vac : arr3 bool.
Variable greater : bool.
Notation vox := (vox nx ny nz).

(** Around [p]: the offsets beyond [value], those beyond or at it, and of the latter those that are beyond it or
    have a neighbour among them. *)
Definition open_part (p : pos) (value : Q) (size : Z) (s : pos) : Prop :=
  in_range size s /\ rd vac (vox p s) = false /\ past greater value (rd data (vox p s)).
Definition closed_part (p : pos) (value : Q) (size : Z) (s : pos) : Prop :=
  in_range size s /\ rd vac (vox p s) = false /\ (past greater value (rd data (vox p s)) \/ (rd data (vox p s) == value)%Q).
Definition grouped (p : pos) (value : Q) (size : Z) (s : pos) : Prop :=
  closed_part p value size s /\ (open_part p value size s \/ exists t, adjacent s t /\ closed_part p value size t).

Hypothesis shape : 2 <= nx /\ 2 <= ny /\ 2 <= nz.
Lemma at_shift_vox {A} (a : arr3 A) p s : in_grid nx ny nz p -> in_range 2 s -> at_shift nx ny nz a p s = rd a (vox p s).
Proof.
  destruct p as [[i j] k], s as [[si sj] sk]. unfold in_grid, in_range. intros I R. unfold at_shift, wrap_point, SaddleSpec.vox, rd. rewrite !wrap1_mod by lia. reflexivity.
Qed.
Lemma beyond_past x v : beyond greater x v = true <-> past greater v x.
Proof. unfold beyond, past. destruct greater; apply Qltb_lt. Qed.
Lemma past_neq v x : past greater v x -> ~ (x == v)%Q.
Proof. unfold past. destruct greater; intros H E; rewrite E in H; now apply Qlt_irrefl in H. Qed.
Lemma range_mono a b s : a <= b -> in_range a s -> in_range b s.
Proof. destruct s as [[i j] k]. unfold in_range. lia. Qed.

Lemma kind_cases p value s : in_grid nx ny nz p -> in_range 2 s ->
  (kind nx ny nz data vac greater p value s = 2%nat <-> open_part p value 2 s) /\ ((1 <= kind nx ny nz data vac greater p value s)%nat <-> closed_part p value 2 s).
Proof.
  intros I R. unfold kind, open_part, closed_part. rewrite !(at_shift_vox _ p s I R). destruct (rd vac (vox p s)) eqn:V.
  - split; (split; [lia|]); intros H; destruct H as (_ & H & _); discriminate.
  - destruct (beyond greater (rd data (vox p s)) value) eqn:B.
    + apply beyond_past in B. split; split; auto; lia.
    + assert (NB : ~ past greater value (rd data (vox p s))) by (intros H; apply beyond_past in H; congruence). destruct (Qeq_bool (rd data (vox p s)) value) eqn:E.
      * apply Qeq_bool_iff in E. split; split; auto; try lia. intros (_ & _ & H). contradiction.
      * assert (NE : ~ (rd data (vox p s) == value)%Q) by (intros H; apply Qeq_bool_iff in H; congruence). split; (split; [lia|]); intros H; [destruct H as (_ & _ & H)|destruct H as (_ & _ & [H|H])]; contradiction.
Qed.

(** The test on the larger box compares two numbers of groups. *)
Lemma saddle_spec fuel p value : in_grid nx ny nz p -> (125 <= fuel)%nat ->
  exists n m, parts (open_part p value 2) n /\ parts (grouped p value 2) m /\
    check_if_saddle nx ny nz data vac greater fuel p value (fst (get_connections_in_box 2)) (snd (get_connections_in_box 2)) = Done (negb (Nat.eqb n m)).
Proof.
  intros I F. set (k := kind nx ny nz data vac greater p value).
  assert (K2 : forall s, (k s <= 2)%nat) by (intros s; unfold k, kind; destruct (at_shift _ _ _ vac p s); [lia|]; destruct (beyond _ _ _); [lia|]; destruct (Qeq_bool _ _); lia).
  assert (LB : length (box 2) = 125%nat) by reflexivity.
  destruct (stage_two 2 fuel k ltac:(lia) K2 ltac:(lia)) as (pp & r & pp' & r' & E1 & E2 & P1 & P2). exists (count_true r), (count_true r'). split; [|split].
  - eapply parts_ext; [|exact P1]. intros s. cbv beta. split.
    + intros [R H]. now apply (kind_cases p value s I R).
    + intros H. assert (R := proj1 H). split; [exact R|]. now apply (kind_cases p value s I R).
  - eapply parts_ext; [|exact P2]. intros s. unfold counted, grouped. split.
    + intros (R & H1 & H2). destruct (kind_cases p value s I R) as [KO KC]. split; [now apply KC|]. destruct H2 as [H2|(t & T & A & H2)]; [left; now apply KO|]. right. exists t. split; [exact A|]. now apply (kind_cases p value t I T).
    + intros (H1 & H2). assert (R := proj1 H1). destruct (kind_cases p value s I R) as [KO KC]. split; [exact R|]. split; [now apply KC|]. destruct H2 as [H2|(t & A & H2)]; [left; now apply KO|]. right. exists t. split; [exact (proj1 H2)|]. split; [exact A|]. now apply (kind_cases p value t I (proj1 H2)).
  - unfold check_if_saddle. cbn [get_connections_in_box fst snd] in *. rewrite LB in E1. unfold k in *. rewrite E1. cbn [obind]. rewrite E2. reflexivity.
Qed.

(** The loop over the nearest neighbours. *)
Section Mark.
Variables (p : pos) (value : Q).
Notation isvac s := (at_shift nx ny nz vac p s).
Notation val s := (at_shift nx ny nz data p s).
Lemma mark3_clean : forall l idx mask, (forall i s, nth_error l i = Some s -> (idx + i <> 13)%nat -> isvac s = false /\ Qeq_bool (val s) value = false) ->
  (idx + length l <= length mask)%nat ->
  exists mask', mark3 nx ny nz data vac greater p value idx l mask = inr (mask', true) /\ length mask' = length mask /\
    forall i, nth i mask' false = match nth_error l (i - idx) with Some s => if Nat.leb idx i && negb (Nat.eqb i 13) && beyond greater (val s) value then true else nth i mask false | None => nth i mask false end.
Proof.
  induction l as [|s l IH]; intros idx mask H L; cbn [mark3].
  - exists mask. split; [reflexivity|]. split; [reflexivity|]. intros i. destruct (i - idx)%nat; reflexivity.
  - cbn [length] in L. assert (HT : forall i s0, nth_error l i = Some s0 -> (S idx + i <> 13)%nat -> isvac s0 = false /\ Qeq_bool (val s0) value = false) by (intros i s0 N X; apply (H (S i) s0 N); lia).
    assert (SH : forall i, nth_error (s :: l) (i - idx) = if Nat.ltb idx i then nth_error l (i - S idx) else Some s).
    { intros i. destruct (Nat.ltb_spec idx i) as [G|G]; [replace (i - idx)%nat with (S (i - S idx)) by lia; reflexivity|replace (i - idx)%nat with 0%nat by lia; reflexivity]. }
    assert (STEP : forall m1, (length m1 = length mask) -> (forall i, nth i m1 false = if Nat.eqb i idx && negb (Nat.eqb i 13) && beyond greater (val s) value then true else nth i mask false) ->
      exists mask', mark3 nx ny nz data vac greater p value (S idx) l m1 = inr (mask', true) /\ length mask' = length mask /\
      forall i, nth i mask' false = match nth_error (s :: l) (i - idx) with Some s => if Nat.leb idx i && negb (Nat.eqb i 13) && beyond greater (val s) value then true else nth i mask false | None => nth i mask false end).
    { intros m1 L1 N1. destruct (IH (S idx) m1 HT ltac:(lia)) as (m' & E & L' & N'). exists m'. split; [exact E|]. split; [congruence|]. intros i. rewrite N', N1, SH. destruct (Nat.ltb_spec idx i) as [G|G].
      - replace (Nat.leb (S idx) i) with true by lia. replace (Nat.leb idx i) with true by lia. replace (Nat.eqb i idx) with false by lia. reflexivity.
      - replace (i - S idx)%nat with 0%nat by lia. replace (Nat.leb (S idx) i) with false by lia. destruct (Nat.eq_dec i idx) as [->|NE].
        + rewrite Nat.leb_refl, Nat.eqb_refl. cbn [andb]. destruct (nth_error l 0); destruct (negb (Nat.eqb idx 13)), (beyond greater (val s) value); reflexivity.
        + replace (Nat.leb idx i) with false by lia. replace (Nat.eqb i idx) with false by lia. cbn [andb]. destruct (nth_error l 0); reflexivity. }
    destruct (Nat.eqb_spec idx 13) as [->|N13].
    + apply STEP; [reflexivity|]. intros i. destruct (Nat.eqb_spec i 13); reflexivity.
    + destruct (H 0%nat s eq_refl ltac:(lia)) as [V Q0]. rewrite V, Q0. destruct (beyond greater (val s) value) eqn:B.
      * apply STEP; [apply upd_length|]. intros i. rewrite nth_upd. rewrite (Nat.eqb_sym idx i). destruct (Nat.eqb_spec i idx) as [->|NE]; [|reflexivity]. replace (Nat.ltb idx (length mask)) with true by lia. replace (Nat.eqb idx 13) with false by lia. reflexivity.
      * apply STEP; [reflexivity|]. intros i. rewrite andb_false_r. reflexivity.
Qed.
Lemma mark3_same : forall l idx mask, (forall i s, nth_error l i = Some s -> (idx + i <> 13)%nat -> isvac s = false) ->
  (exists i s, nth_error l i = Some s /\ (idx + i <> 13)%nat /\ (val s == value)%Q) -> exists mask', mark3 nx ny nz data vac greater p value idx l mask = inr (mask', false).
Proof.
  induction l as [|s l IH]; intros idx mask H (i & x & N & X & E); [destruct i; discriminate|]. cbn [mark3].
  assert (HT : forall i s0, nth_error l i = Some s0 -> (S idx + i <> 13)%nat -> isvac s0 = false) by (intros a s0 N0 X0; apply (H (S a) s0 N0); lia).
  assert (REST : i <> 0%nat -> forall m, exists mask', mark3 nx ny nz data vac greater p value (S idx) l m = inr (mask', false)).
  { intros I m. destruct i as [|i]; [congruence|]. apply IH; [exact HT|]. exists i, x. split; [exact N|]. split; [lia|exact E]. }
  destruct (Nat.eqb_spec idx 13) as [->|N13]; [apply REST; intros ->; lia|]. rewrite (H 0%nat s eq_refl ltac:(lia)).
  destruct (beyond greater (val s) value) eqn:B.
  - apply REST. intros ->. injection N as ->. apply beyond_past in B. now apply past_neq in B.
  - destruct (Qeq_bool (val s) value) eqn:Q0; [eexists; reflexivity|]. apply REST. intros ->. injection N as ->. apply Qeq_bool_iff in E. congruence.
Qed.
Lemma mark3_vac : forall l idx mask, (forall i s, nth_error l i = Some s -> (idx + i <> 13)%nat -> ~ (val s == value)%Q) ->
  (exists i s, nth_error l i = Some s /\ (idx + i <> 13)%nat /\ isvac s = true) -> mark3 nx ny nz data vac greater p value idx l mask = inl false.
Proof.
  induction l as [|s l IH]; intros idx mask H (i & x & N & X & E); [destruct i; discriminate|]. cbn [mark3].
  assert (HT : forall i s0, nth_error l i = Some s0 -> (S idx + i <> 13)%nat -> ~ (val s0 == value)%Q) by (intros a s0 N0 X0; apply (H (S a) s0 N0); lia).
  assert (REST : i <> 0%nat -> forall m, mark3 nx ny nz data vac greater p value (S idx) l m = inl false).
  { intros I m. destruct i as [|i]; [congruence|]. apply IH; [exact HT|]. exists i, x. split; [exact N|]. split; [lia|exact E]. }
  destruct (Nat.eqb_spec idx 13) as [->|N13]; [apply REST; intros ->; lia|]. destruct (isvac s) eqn:V; [reflexivity|].
  assert (I : i <> 0%nat) by (intros ->; injection N as ->; congruence).
  destruct (beyond greater (val s) value); [now apply REST|]. destruct (Qeq_bool (val s) value) eqn:Q0; [|now apply REST]. exfalso. apply (H 0%nat s eq_refl); [lia|]. now apply Qeq_bool_iff.
Qed.
End Mark.

(** Offsets of the small box, apart from its centre. *)
Lemma nth_box1 i s : nth_error (box 1) i = Some s -> in_range 1 s /\ i = ix 1 s.
Proof.
  intros N. assert (L : (i < length (box 1))%nat) by (apply nth_error_Some; congruence). assert (E : at_idx 1 i = s) by (unfold at_idx; now apply nth_error_nth). split.
  - rewrite <- E. apply at_idx_range; [lia|exact L].
  - rewrite <- E. unfold ix. rewrite idx_at; [reflexivity|lia|exact L].
Qed.
Lemma box1_nth s : in_range 1 s -> nth_error (box 1) (ix 1 s) = Some s.
Proof.
  intros R. assert (L := ix_lt 1 s ltac:(lia) R). assert (E := ix_at 1 s ltac:(lia) R). unfold at_idx in E. rewrite <- E at 2. now apply nth_error_nth'.
Qed.
Lemma centre_ix s : in_range 1 s -> ix 1 s = 13%nat <-> s = (0, 0, 0).
Proof.
  intros R. assert (Z0 : in_range 1 (0, 0, 0)) by (unfold in_range; lia). assert (E : ix 1 (0, 0, 0) = 13%nat) by reflexivity. split; [|now intros ->]. intros H. rewrite <- (ix_at 1 s), H, <- E by (lia || exact R). now apply ix_at.
Qed.

(** The test on the nearest neighbours, at the value of the point itself. *)
Lemma possible_spec fuel p : in_grid nx ny nz p -> (27 <= fuel)%nat ->
  let value := rd data p in let test := check_if_possible_saddle nx ny nz data vac greater fuel p value (fst (get_connections_in_box 1)) (snd (get_connections_in_box 1)) in
  let near s := in_range 1 s /\ s <> (0, 0, 0) in
  ((forall s, near s -> rd vac (vox p s) = false) -> (exists s, near s /\ (rd data (vox p s) == value)%Q) -> test = Done true) /\
  ((exists s, near s /\ rd vac (vox p s) = true) -> (forall s, near s -> ~ (rd data (vox p s) == value)%Q) -> test = Done false) /\
  ((forall s, near s -> rd vac (vox p s) = false) -> (forall s, near s -> ~ (rd data (vox p s) == value)%Q) -> rd vac p = false ->
   exists n, parts (open_part p value 1) n /\ test = Done (Nat.ltb 1 n)).
Proof.
  intros I F value test near.
  assert (AT : forall A (a : arr3 A) s, in_range 1 s -> at_shift nx ny nz a p s = rd a (vox p s)) by (intros A a s R; apply at_shift_vox; [exact I|eapply range_mono; [|exact R]; lia]).
  assert (NB : forall i s, nth_error (box 1) i = Some s -> (0 + i <> 13)%nat -> near s). { intros i s N X. apply nth_box1 in N as [R ->]. split; [exact R|]. intros E. apply X. now apply centre_ix. }
  assert (BN : forall s, near s -> exists i, nth_error (box 1) i = Some s /\ (0 + i <> 13)%nat). { intros s [R N]. exists (ix 1 s). split; [now apply box1_nth|]. cbn. intros E. apply N. now apply centre_ix. }
  assert (PS : forall a, vox p (0, 0, 0) = a -> a = p). { intros a <-. destruct p as [[i j] k]. unfold in_grid in I. unfold SaddleSpec.vox. rewrite !Z.add_0_r, !Z.mod_small by lia. reflexivity. }
  split; [|split].
  - intros V (s & S & E). unfold test, check_if_possible_saddle. cbn [get_connections_in_box fst].
    destruct (mark3_same p value (box 1) 0 (repeat false 27)) as (m & ->); [|destruct (BN s S) as (i & N & X); exists i, s; split; [exact N|]; split; [exact X|rewrite AT; [exact E|apply S]]|reflexivity].
    intros i s0 N X. assert (NS := NB i s0 N X). rewrite AT by apply NS. now apply V.
  - intros (s & S & V) E. unfold test, check_if_possible_saddle. cbn [get_connections_in_box fst].
    rewrite (mark3_vac p value (box 1) 0 (repeat false 27)); [reflexivity| |destruct (BN s S) as (i & N & X); exists i, s; split; [exact N|]; split; [exact X|rewrite AT; [exact V|apply S]]].
    intros i s0 N X. assert (NS := NB i s0 N X). rewrite AT by apply NS. now apply E.
  - intros V E VP. unfold test, check_if_possible_saddle. cbn [get_connections_in_box fst snd].
    destruct (mark3_clean p value (box 1) 0 (repeat false 27)) as (m & -> & LM & NM).
    { intros i s N X. assert (NS := NB i s N X). rewrite !AT by apply NS. split; [now apply V|]. destruct (Qeq_bool (rd data (vox p s)) value) eqn:Q0; [|reflexivity]. apply Qeq_bool_iff in Q0. now apply E in Q0. }
    { reflexivity. }
    rewrite repeat_length in LM. destruct (stage_one 1 fuel m ltac:(lia) LM ltac:(lia)) as (q & r & E1 & _ & _ & _ & PA). rewrite LM in E1. unfold identity in E1. cbn [get_connections_in_box snd] in E1. rewrite E1. cbn [obind]. exists (count_true r). split; [|reflexivity].
    eapply parts_ext; [|exact PA]. intros s. cbv beta. unfold open_part.
    assert (NS : in_range 1 s -> nth (ix 1 s) m false = true <-> s <> (0, 0, 0) /\ past greater value (rd data (vox p s))).
    { intros R. rewrite NM, Nat.sub_0_r, box1_nth by exact R. cbn [Nat.leb andb]. rewrite nth_repeat, AT by exact R. destruct (Nat.eqb_spec (ix 1 s) 13) as [C|C]; cbn [negb andb].
      - apply centre_ix in C; [|exact R]. split; [discriminate|]. intros [N _]. contradiction.
      - destruct (beyond greater (rd data (vox p s)) value) eqn:B.
        + apply beyond_past in B. split; [|reflexivity]. intros _. split; [|exact B]. intros X. apply C. now apply centre_ix.
        + split; [discriminate|]. intros [_ X]. apply beyond_past in X. congruence. }
    split.
    + intros [R H]. apply (NS R) in H as [N H]. split; [exact R|]. split; [apply V; now split|exact H].
    + intros (R & _ & H). split; [exact R|]. apply (NS R). split; [|exact H]. intros ->. rewrite (PS _ eq_refl) in H. apply past_neq in H. now apply H.
Qed.

(** ** A point joining two groups *)
Lemma linked_joined p value size s t : in_grid nx ny nz p -> linked (open_part p value size) s t ->
  joined nx ny nz (fun w => rd vac w = false /\ past greater value (rd data w)) (vox p s) (vox p t).
Proof.
  intros I L. induction L as [s S|s t u L IH A U]; [constructor; apply S|].
  assert (E : vox p u = vox (vox p t) (let '(a, b, c) := u in let '(a', b', c') := t in (a - a', b - b', c - c'))).
  { destruct p as [[i j] k], t as [[a b] c], u as [[a' b'] c']. unfold SaddleSpec.vox. rewrite !Zplus_mod_idemp_l. f_equal; [f_equal|]; f_equal; ring. }
  rewrite E. apply joined_step; [exact IH| |rewrite <- E; apply U]. destruct t as [[a b] c], u as [[a' b'] c']. unfold adjacent in A. unfold in_range. lia.
Qed.
Lemma merge_count (O G : pos -> Prop) n m a b : parts O n -> parts G m -> (forall s, O s -> G s) -> O a -> O b -> ~ linked O a b -> linked G a b ->
  (forall s, G s -> exists u, O u /\ linked G s u) -> (m < n)%nat.
Proof.
  intros (reps & ND & <- & I & C & D) (reps' & ND' & <- & I' & C' & D') SUB OA OB NL LG CO.
  assert (MO : forall s t, linked O s t -> linked G s t) by (intros s t; apply linked_mono; exact SUB).
  assert (H : exists l, Forall2 (fun r x => In x reps /\ linked G r x) reps' l).
  { clear ND' D' C'. induction reps' as [|r l0 IH]; [exists []; constructor|]. destruct IH as (l & F); [intros x X; apply I'; now right|]. destruct (CO r (I' r (or_introl eq_refl))) as (u & U & L). destruct (C u U) as (x & X & K). exists (x :: l). constructor; [|exact F]. split; [exact X|]. apply linked_trans with u; auto. }
  destruct H as (l & F). assert (E : length reps' = length l) by (clear - F; induction F; cbn; congruence). rewrite E.
  assert (NDl : NoDup l).
  { clear - ND' D' F. induction F as [|r x l0 l [X L] F IH]; [constructor|]. inversion ND' as [|? ? N ND'']; subst. constructor.
    - intros K. assert (Gx : exists r', In r' l0 /\ linked G r' x). { clear - F K. induction F as [|u v l0 l [A B] F IH]; [destruct K|]. destruct K as [->|K]; [exists u; split; [now left|exact B]|]. destruct (IH K) as (r' & R & S). exists r'. split; [now right|exact S]. }
      destruct Gx as (r' & R & S). apply N. replace r with r'; [exact R|]. apply D'; [now right|now left|]. apply linked_trans with x; [exact S|now apply linked_sym].
    - apply IH; [exact ND''|intros u v A B; apply D'; now right]. }
  assert (INl : incl l reps) by (intros x X; clear - F X; induction F as [|u v l0 l [A B] F IH]; [destruct X|]; destruct X as [->|X]; [exact A|now apply IH]).
  destruct (C a OA) as (ra & RA & LA). destruct (C b OB) as (rb & RB & LB).
  assert (NE : ra <> rb) by (intros ->; apply NL; apply linked_trans with rb; [exact LA|now apply linked_sym]).
  assert (ONE : ~ (In ra l /\ In rb l)).
  { intros [XA XB]. assert (GET : forall x, In x l -> exists r', In r' reps' /\ linked G r' x). { intros x K. clear - F K. induction F as [|u v l0 l [A B] F IH]; [destruct K|]. destruct K as [->|K]; [exists u; split; [now left|exact B]|]. destruct (IH K) as (r' & R & S). exists r'. split; [now right|exact S]. }
    destruct (GET ra XA) as (r1 & R1 & L1). destruct (GET rb XB) as (r2 & R2 & L2).
    assert (r1 = r2). { apply D'; auto. apply linked_trans with ra; [exact L1|]. apply linked_trans with a; [now apply linked_sym, MO|]. apply linked_trans with b; [exact LG|]. apply linked_trans with rb; [now apply MO|now apply linked_sym]. } subst r2.
    clear - F XA XB NE R1 L1 L2 ND' D' NDl. (* one representative has one image *)
    assert (IM : forall u v w, In (u, v) (combine reps' l) -> In (u, w) (combine reps' l) -> v = w).
    { clear - ND'. revert l. induction reps' as [|x l0 IH]; intros [|y l] u v w A B; cbn [combine In] in *; try tauto. inversion ND' as [|? ? N ND'']; subst. destruct A as [A|A], B as [B|B]; [congruence| | |now apply (IH ND'' l u)].
      - injection A as <- <-. apply in_combine_l in B. contradiction.
      - injection B as <- <-. apply in_combine_l in A. contradiction. }
    assert (PR : forall x, In x l -> exists u, In (u, x) (combine reps' l) /\ In u reps' /\ linked G u x).
    { intros x X. clear - F X. induction F as [|u v l0 l [A B] F IH]; [destruct X|]. destruct X as [->|X]; [exists u; split; [now left|]; split; [now left|exact B]|]. destruct (IH X) as (u' & U1 & U2 & U3). exists u'. split; [now right|]. split; [now right|exact U3]. }
    destruct (PR ra XA) as (u & U1 & U2 & U3). destruct (PR rb XB) as (v & V1 & V2 & V3).
    assert (u = r1) by (apply D'; auto; apply linked_trans with ra; [exact U3|now apply linked_sym]). assert (v = r1) by (apply D'; auto; apply linked_trans with rb; [exact V3|now apply linked_sym]). subst u v. apply NE. eapply IM; eassumption. }
  assert (DEC : In ra l \/ ~ In ra l) by (destruct (in_dec (fun x y : pos => ltac:(repeat decide equality)) ra l); auto).
  assert (X : exists x, In x reps /\ ~ In x l) by (destruct DEC as [Y|Y]; [exists rb; split; [exact RB|]; intros Z0; apply ONE; auto|exists ra; auto]).
  destruct X as (x & XR & XL). apply (NoDup_incl_length (l := x :: l)); [now constructor|]. intros y [<-|Y]; [exact XR|now apply INl].
Qed.
End Grid.
