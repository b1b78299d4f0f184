From Coq Require Import QArith Lqa Lia ZifyBool ZifyNat.
From Verif Require Import Base GridModel RootsModel UnionModel ChargeModel ChargeProofs CoordModel CoordMerge BifProofs NearModel WeightModel RefineModel PlaneModel BadelfModel BadelfSpec BadelfProofs.
Local Open Scope Z_scope.

(** ** The search around one voxel *)
Lemma qsum_restrict (f : nat -> Q) (n : nat) (l : list nat) : NoDup l -> (forall s, In s l -> (s < n)%nat) ->
  (forall s, (s < n)%nat -> ~ In s l -> (f s == 0)%Q) -> (qsum (map f l) == qsum (map f (seq 0 n)))%Q.
Proof.
  intros ND R Z0.
  assert (P : Permutation (seq 0 n) (l ++ filter (fun s => negb (existsb (Nat.eqb s) l)) (seq 0 n))).
  { assert (EX : forall s, existsb (Nat.eqb s) l = true <-> In s l).
    { intros s. rewrite existsb_exists. split; [intros (x & X & E); apply Nat.eqb_eq in E; congruence|intros H; exists s; split; [exact H|apply Nat.eqb_refl]]. }
    apply NoDup_Permutation; [apply seq_NoDup| |].
    - apply NoDup_app_iff2; [exact ND|apply NoDup_filter, seq_NoDup|]. intros x X Y. apply filter_In in Y. destruct Y as [_ Y].
      rewrite negb_true_iff in Y. apply EX in X. congruence.
    - intros s. rewrite in_app_iff, filter_In, in_seq, negb_true_iff. split.
      + intros H. destruct (existsb (Nat.eqb s) l) eqn:E; [left; now apply EX|right; split; [exact H|reflexivity]].
      + intros [H|[H _]]; [specialize (R s H); lia|exact H]. }
  rewrite (qsum_perm _ _ (Permutation_map f P)), map_app, qsum_app.
  assert (E : (qsum (map f (filter (fun s => negb (existsb (Nat.eqb s) l)) (seq 0 n))) == 0)%Q); [|rewrite E; ring].
  etransitivity; [apply (qsum_map_ext f (fun _ => 0%Q))|apply qsum_map_zero]. intros s H. apply filter_In in H. destruct H as [H1 H2].
  apply in_seq in H1. apply Z0; [lia|]. intros I. rewrite negb_true_iff in H2. enough (existsb (Nat.eqb s) l = true) by congruence.
  apply existsb_exists. exists s. split; [exact I|apply Nat.eqb_refl].
Qed.

Lemma qsum_pos l : l <> [] -> (forall x, In x l -> (0 < x)%Q) -> (0 < qsum l)%Q.
Proof.
  destruct l as [|x t]; [congruence|]. intros _ H. rewrite qsum_cons. pose proof (H x (or_introl eq_refl)).
  assert (0 <= qsum t)%Q by (apply qsum_nonneg; intros y Y; apply Qlt_le_weak, H; now right). lra.
Qed.

Lemma div_pos a b : (0 < a)%Q -> (0 < b)%Q -> (0 < a / b)%Q.
Proof. intros A B. apply Qlt_shift_div_l; [exact B|]. lra. Qed.

Lemma nodup_left {A} (a b : list A) : NoDup (a ++ b) -> NoDup a.
Proof.
  induction a as [|x t IH]; intros N; [constructor|]. inversion N as [|? ? NI ND]; subst. constructor; [|now apply IH].
  intros I. apply NI. apply in_or_app. now left.
Qed.

Section Gather.
Variables nx ny nz : Z.
Variable max_label : nat.
Variable argsort : list Q -> list nat.
Hypothesis SORT : forall l, Permutation (argsort l) (seq 0 (length l)).
Variable labels : arr3 Z.
Hypothesis LOW : forall v, -1 <= rd3 labels v.
Variable v : voxel.

Local Notation lab d := (rd3 labels (neigh nx ny nz v (fst d))).
Local Notation wt := (weight nx ny nz labels v).
Local Notation ok := (usable nx ny nz max_label labels v).

Record inv (pre : list (voxel * Q)) (st : search) : Prop := {
  inv_len : length (s_counts st) = max_label;
  inv_counts : forall s, (s < max_label)%nat -> (nth s (s_counts st) 0 == wt (Z.of_nat s) pre)%Q;
  inv_total : (s_total st == total_weight nx ny nz max_label labels v pre)%Q;
  inv_found : s_found st = true <-> hit nx ny nz max_label labels v pre;
  inv_nodup : NoDup (s_sites st);
  inv_sites : forall s, In s (s_sites st) <-> 0 <= s < Z.of_nat max_label /\ exists d, In d pre /\ lab d = s }.

Lemma weight_app s a b : (wt s (a ++ b) == wt s a + wt s b)%Q.
Proof. unfold weight. rewrite map_app. apply qsum_app. Qed.
Lemma weight_one s d : (wt s [d] == if lab d =? s then 1 / snd d else 0)%Q.
Proof. unfold weight. cbn [map]. rewrite qsum_cons. cbn [qsum fold_right]. ring_simplify. reflexivity. Qed.

Lemma inv0 : inv [] (search0 max_label).
Proof.
  constructor; cbn.
  - apply repeat_length.
  - intros s H. rewrite nth_repeat0. reflexivity.
  - unfold total_weight. symmetry. etransitivity; [apply (qsum_map_ext _ (fun _ => 0%Q)); intros; reflexivity|apply qsum_map_zero].
  - split; [discriminate|]. intros (d & [] & _).
  - constructor.
  - intros s. split; [intros []|]. intros (_ & d & [] & _).
Qed.

Lemma weight_pos s pre : (forall d, In d pre -> (0 < snd d)%Q) -> (exists d, In d pre /\ lab d = s) -> (0 < wt s pre)%Q.
Proof.
  intros P (d & D & E). unfold weight.
  assert (NN : forall x, In x (map (fun d0 => if lab d0 =? s then (1 / snd d0)%Q else 0%Q) pre) -> (0 <= x)%Q).
  { intros x X. apply in_map_iff in X. destruct X as (e & <- & IE). destruct (lab e =? s); [apply Qlt_le_weak, div_pos; [reflexivity|now apply P]|lra]. }
  apply Qlt_le_trans with (1 / snd d)%Q; [apply div_pos; [reflexivity|now apply P]|]. apply qsum_ge_elem; [exact NN|].
  apply in_map_iff. exists d. split; [|exact D]. apply Z.eqb_eq in E. now rewrite E.
Qed.
Lemma weight_zero s pre : ~ (exists d, In d pre /\ lab d = s) -> (wt s pre == 0)%Q.
Proof.
  intros N. unfold weight. etransitivity; [apply (qsum_map_ext _ (fun _ => 0%Q))|apply qsum_map_zero]. intros d D.
  destruct (lab d =? s) eqn:E; [|reflexivity]. exfalso. apply N. exists d. split; [exact D|lia].
Qed.

Lemma inv_look pre st d : (forall e, In e (pre ++ [d]) -> (0 < snd e)%Q) -> inv pre st -> inv (pre ++ [d]) (look nx ny nz max_label labels v st d).
Proof.
  intros P [I1 I2 I3 I4 I5 I6].
  assert (E : look nx ny nz max_label labels v st d =
    if negb (lab d =? -1) && (lab d <? Z.of_nat max_label)
    then Search (add_at (s_counts st) (Z.to_nat (lab d)) (1 / snd d)%Q)
          (if Qeq_bool (nth (Z.to_nat (lab d)) (s_counts st) 0%Q) 0 then s_sites st ++ [lab d] else s_sites st) (s_total st + 1 / snd d)%Q true
    else st).
  { unfold look, neigh. destruct v as [[i j] k], d as [[[a b] c] q]. reflexivity. }
  rewrite E. clear E. pose proof (LOW (neigh nx ny nz v (fst d))) as LD.
  assert (PP : forall e, In e pre -> (0 < snd e)%Q) by (intros; apply P, in_or_app; now left).
  assert (PD : (0 < snd d)%Q) by (apply P, in_or_app; right; now left).
  destruct (negb (lab d =? -1) && (lab d <? Z.of_nat max_label)) eqn:C.
  - assert (R : 0 <= lab d < Z.of_nat max_label) by lia. set (n := Z.to_nat (lab d)). assert (En : Z.of_nat n = lab d) by lia.
    assert (Ln : (n < max_label)%nat) by lia. constructor; cbn [s_counts s_sites s_total s_found].
    + now rewrite add_at_length.
    + intros s Hs. rewrite nth_add_at by lia. rewrite weight_app, weight_one. destruct (Nat.eqb_spec n s) as [->|NE].
      * replace (lab d =? Z.of_nat s) with true by lia. rewrite I2 by exact Hs. reflexivity.
      * replace (lab d =? Z.of_nat s) with false by lia. rewrite I2 by exact Hs. ring.
    + rewrite I3. unfold total_weight. transitivity (qsum (map (fun s => (wt (Z.of_nat s) pre + (if Nat.eqb n s then 1 / snd d else 0))%Q) (seq 0 max_label))).
      * rewrite qsum_map_plus, qsum_indicator by exact Ln. reflexivity.
      * apply qsum_map_ext. intros s _. rewrite weight_app, weight_one. destruct (Nat.eqb_spec n s) as [->|NE].
        -- replace (lab d =? Z.of_nat s) with true by lia. reflexivity.
        -- replace (lab d =? Z.of_nat s) with false by lia. reflexivity.
    + split; [|reflexivity]. intros _. exists d. split; [apply in_or_app; right; now left|exact R].
    + destruct (Qeq_bool (nth n (s_counts st) 0%Q) 0) eqn:Q0; [|exact I5]. apply Qeq_bool_eq in Q0. rewrite I2, En in Q0 by exact Ln.
      apply NoDup_app_iff2; [exact I5|constructor; [intros []|constructor]|]. intros x X [<-|[]]. apply I6 in X. destruct X as [_ X].
      pose proof (weight_pos (lab d) pre PP X). lra.
    + intros s. destruct (Qeq_bool (nth n (s_counts st) 0%Q) 0) eqn:Q0.
      * rewrite in_app_iff, I6. split.
        -- intros [(A & e & B & C')|[<-|[]]]; [split; [exact A|exists e; split; [apply in_or_app; now left|exact C']]|].
           split; [exact R|]. exists d. split; [apply in_or_app; right; now left|reflexivity].
        -- intros (A & e & B & C'). apply in_app_or in B. destruct B as [B|[<-|[]]]; [left; split; [exact A|now exists e]|right; left; exact C'].
      * rewrite I6. split.
        -- intros (A & e & B & C'). split; [exact A|exists e; split; [apply in_or_app; now left|exact C']].
        -- intros (A & e & B & C'). split; [exact A|]. apply in_app_or in B. destruct B as [B|[<-|[]]]; [now exists e|].
           assert (X : ~ ~ exists d0, In d0 pre /\ lab d0 = s).
           { intros N. apply weight_zero in N. assert (Qeq_bool (nth n (s_counts st) 0%Q) 0 = true); [|congruence].
             apply Qeq_eq_bool. rewrite I2, En, C' by exact Ln. exact N. }
           destruct (in_dec Z.eq_dec s (map (fun e => lab e) pre)) as [IN|NIN].
           ++ apply in_map_iff in IN. destruct IN as (e & E1 & E2). exists e. auto.
           ++ exfalso. apply X. intros (e & E1 & E2). apply NIN. apply in_map_iff. exists e. auto.
  - assert (NR : ~ 0 <= lab d < Z.of_nat max_label) by lia.
    assert (ZW : forall s, 0 <= s < Z.of_nat max_label -> (wt s (pre ++ [d]) == wt s pre)%Q).
    { intros s Hs. rewrite weight_app, weight_one. replace (lab d =? s) with false by lia. ring. }
    constructor; auto.
    + intros s Hs. rewrite ZW by lia. now apply I2.
    + rewrite I3. unfold total_weight. apply qsum_map_ext. intros s Hs. apply in_seq in Hs. symmetry. apply ZW. lia.
    + rewrite I4. split; intros (e & A & B).
      * exists e. split; [apply in_or_app; now left|exact B].
      * apply in_app_or in A. destruct A as [A|[<-|[]]]; [now exists e|contradiction].
    + intros s. rewrite I6. split; intros (A & e & B & C').
      * split; [exact A|]. exists e. split; [apply in_or_app; now left|exact C'].
      * split; [exact A|]. apply in_app_or in B. destruct B as [B|[<-|[]]]; [now exists e|]. exfalso. apply NR. lia.
Qed.

Lemma gather_from : forall t pre breaks st, (forall e, In e (pre ++ t) -> (0 < snd e)%Q) -> inv pre st ->
  StronglySorted lt breaks -> (forall b, In b breaks -> (length pre <= b < length pre + length t)%nat) ->
  (exists b st', reached nx ny nz max_label labels v (pre ++ t) breaks b /\ inv (firstn (S b) (pre ++ t)) st' /\
     gather nx ny nz max_label argsort labels v t (length pre) breaks st = condense argsort st') \/
  ((forall b, In b breaks -> ~ hit nx ny nz max_label labels v (firstn (S b) (pre ++ t))) /\
     gather nx ny nz max_label argsort labels v t (length pre) breaks st = []).
Proof.
  induction t as [|d t IH]; intros pre breaks st P I SS RB.
  - destruct breaks as [|b bs]; [right; split; [intros ? []|reflexivity]|]. specialize (RB b (or_introl eq_refl)). cbn in RB. lia.
  - destruct breaks as [|b bs]; [right; split; [intros ? []|reflexivity]|].
    assert (EQ : pre ++ d :: t = (pre ++ [d]) ++ t) by (rewrite <- app_assoc; reflexivity).
    assert (LQ : length (pre ++ [d]) = S (length pre)) by (rewrite app_length; cbn; lia).
    assert (P1 : forall e, In e (pre ++ [d]) -> (0 < snd e)%Q).
    { intros e IE. apply P. rewrite EQ. apply in_or_app. now left. }
    pose proof (inv_look pre st d P1 I) as I1. cbn [gather]. set (st1 := look nx ny nz max_label labels v st d) in *.
    inversion SS as [|? ? SB FB]; subst. rewrite Forall_forall in FB.
    assert (FN : firstn (S (length pre)) (pre ++ d :: t) = pre ++ [d]).
    { rewrite EQ, <- LQ, firstn_app, Nat.sub_diag, firstn_all. cbn. apply app_nil_r. }
    destruct (Nat.eqb_spec (length pre) b) as [Eb|Nb].
    + subst b. destruct (s_found st1) eqn:F.
      * left. exists (length pre), st1. rewrite FN. split; [|split; [exact I1|reflexivity]].
        split; [now left|]. split; [rewrite FN; now apply (inv_found _ _ I1)|]. intros b' [<-|B'] LB; [lia|]. specialize (FB b' B'). lia.
      * assert (NH : ~ hit nx ny nz max_label labels v (pre ++ [d])) by (intros H; apply (inv_found _ _ I1) in H; congruence).
        destruct bs as [|b2 bs].
        -- right. split; [|reflexivity]. intros b [<-|[]]. now rewrite FN.
        -- rewrite <- LQ. rewrite EQ in P. destruct (IH (pre ++ [d]) (b2 :: bs) st1 P I1 SB) as [(b & st' & RE & IV & G)|[NH2 G]].
           ++ intros b B. specialize (RB b (or_intror B)). specialize (FB b B). rewrite LQ. cbn in RB. lia.
           ++ left. exists b, st'. rewrite EQ. split; [|split; [exact IV|exact G]]. destruct RE as (R1 & R2 & R3). split; [now right|]. split; [exact R2|].
              intros b' [<-|B'] LB; [rewrite <- EQ, FN; exact NH|now apply R3].
           ++ right. split; [|exact G]. intros b [<-|B]; [rewrite FN; exact NH|rewrite EQ; now apply NH2].
    + rewrite <- LQ. rewrite EQ in P |- *. apply (IH (pre ++ [d]) (b :: bs) st1 P I1 SS).
      intros b0 B0. pose proof (RB b0 B0) as R0. cbn in R0. rewrite LQ. destruct B0 as [<-|B0]; [lia|]. specialize (FB b0 B0). pose proof (RB b (or_introl eq_refl)). lia.
Qed.

Lemma sites_reduced pre st : (forall e, In e pre -> (0 < snd e)%Q) -> inv pre st ->
  (forall s, In s (s_sites st) -> (nth (Z.to_nat s) (s_counts st) 0 == wt s pre)%Q /\ (0 < wt s pre)%Q) /\
  (qsum (map (fun s => nth (Z.to_nat s) (s_counts st) 0%Q) (s_sites st)) == total_weight nx ny nz max_label labels v pre)%Q.
Proof.
  intros P I. split.
  - intros s S. apply (inv_sites _ _ I) in S. destruct S as [R E]. split; [|now apply weight_pos].
    rewrite (inv_counts _ _ I) by lia. replace (Z.of_nat (Z.to_nat s)) with s by lia. reflexivity.
  - rewrite <- (map_map Z.to_nat (fun n => nth n (s_counts st) 0%Q)). rewrite (qsum_restrict (fun n => nth n (s_counts st) 0%Q) max_label).
    + unfold total_weight. apply qsum_map_ext. intros s S. apply in_seq in S. apply (inv_counts _ _ I). lia.
    + apply NoDup_map_inj_in; [apply (inv_nodup _ _ I)|]. intros x y X Y E. apply (inv_sites _ _ I) in X, Y. lia.
    + intros s S. apply in_map_iff in S. destruct S as (z & <- & Z). apply (inv_sites _ _ I) in Z. lia.
    + intros s Hs N. rewrite (inv_counts _ _ I) by exact Hs. apply weight_zero. intros X. apply N. apply in_map_iff. exists (Z.of_nat s).
      split; [lia|]. apply (inv_sites _ _ I). split; [lia|exact X].
Qed.

Lemma map_snd_combine {A B} : forall (l : list A) (l' : list B), length l = length l' -> map snd (combine l l') = l'.
Proof. induction l as [|x t IH]; intros [|y u] H; try discriminate; [reflexivity|]. cbn. f_equal. apply IH. now injection H. Qed.
Lemma map_fst_combine {A B} : forall (l : list A) (l' : list B), length l = length l' -> map fst (combine l l') = l.
Proof. induction l as [|x t IH]; intros [|y u] H; try discriminate; [reflexivity|]. cbn. f_equal. apply IH. now injection H. Qed.

(** A row of shares: positive, adding up to one, each site once. *)
Definition good_row (pre : list (voxel * Q)) (row : list (Z * Q)) : Prop :=
  row <> [] /\ NoDup (map fst row) /\ (length row <= 10)%nat /\ (forall s f, In (s, f) row -> (0 < f)%Q /\ 0 <= s < Z.of_nat max_label /\ exists d, In d pre /\ lab d = s) /\
  (qsum (map snd row) == 1)%Q /\
  ((exists l, NoDup l /\ (length l <= 10)%nat /\ forall d, In d pre -> ok d -> In (lab d) l) ->
     forall s, 0 <= s < Z.of_nat max_label ->
       (share s row == wt s pre / total_weight nx ny nz max_label labels v pre)%Q /\
       forall f, In (s, f) row -> (f == wt s pre / total_weight nx ny nz max_label labels v pre)%Q).

Lemma qsum_div l c : (qsum (map (fun x => (x / c)%Q) l) == qsum l / c)%Q.
Proof. apply qsum_map_div. Qed.

Lemma share_combine (h : Z -> Q) : forall l s, NoDup l -> (share s (combine l (map h l)) == if in_dec Z.eq_dec s l then h s else 0)%Q.
Proof.
  unfold share. induction l as [|x t IH]; intros s ND; [reflexivity|]. inversion ND as [|? ? NI ND']; subst. cbn [map combine]. rewrite qsum_cons, (IH s ND').
  destruct (Z.eqb_spec x s) as [->|NE].
  - destruct (in_dec Z.eq_dec s t); [contradiction|]. destruct (in_dec Z.eq_dec s (s :: t)) as [_|N]; [ring|]. exfalso. apply N. now left.
  - destruct (in_dec Z.eq_dec s t) as [I|N].
    + destruct (in_dec Z.eq_dec s (x :: t)) as [_|N]; [ring|]. exfalso. apply N. now right.
    + destruct (in_dec Z.eq_dec s (x :: t)) as [[->|I]|_]; [congruence|contradiction|ring].
Qed.

Lemma condense_spec pre st : (forall e, In e pre -> (0 < snd e)%Q) -> inv pre st -> hit nx ny nz max_label labels v pre ->
  good_row pre (condense argsort st).
Proof.
  intros P I H. destruct (sites_reduced pre st P I) as (W & T).
  assert (NE : s_sites st <> []).
  { destruct H as (d & D & U). intros E. assert (IN : In (lab d) (s_sites st)) by (apply (inv_sites _ _ I); split; [exact U|now exists d]).
    rewrite E in IN. contradiction. }
  unfold condense. set (cnt := fun s => nth (Z.to_nat s) (s_counts st) 0%Q) in *. rewrite map_length.
  destruct (Nat.ltb_spec 10 (length (s_sites st))) as [BIG|SMALL].
  - set (red := map cnt (s_sites st)). set (sel := firstn 10 (argsort red)).
    assert (LA : length (argsort red) = length (s_sites st)).
    { rewrite (Permutation_length (SORT red)), seq_length. unfold red. now rewrite map_length. }
    assert (LS : length sel = 10%nat) by (unfold sel; rewrite firstn_length; lia).
    assert (NS : NoDup sel).
    { unfold sel. assert (N : NoDup (argsort red)) by (eapply Permutation_NoDup; [apply Permutation_sym, SORT|apply seq_NoDup]).
      rewrite <- (firstn_skipn 10 (argsort red)) in N. exact (nodup_left _ _ N). }
    assert (RS : forall i, In i sel -> (i < length (s_sites st))%nat).
    { intros i S. assert (In i (argsort red)) by (unfold sel in S; rewrite <- (firstn_skipn 10 (argsort red)); apply in_or_app; now left).
      apply (Permutation_in _ (SORT red)) in H0. apply in_seq in H0. unfold red in H0. rewrite map_length in H0. lia. }
    assert (KV : forall i, In i sel -> nth i red 0%Q = cnt (nth i (s_sites st) 0)).
    { intros i S. unfold red. rewrite (nth_indep _ 0%Q (cnt 0)) by (rewrite map_length; now apply RS). apply map_nth. }
    assert (KP : forall x, In x (map (fun i => nth i red 0%Q) sel) -> (0 < x)%Q).
    { intros x X. apply in_map_iff in X. destruct X as (i & <- & S). rewrite (KV i S).
      destruct (W (nth i (s_sites st) 0)) as [A B]; [apply nth_In; now apply RS|]. unfold cnt. rewrite A. exact B. }
    assert (TP : (0 < qsum (map (fun i => nth i red 0%Q) sel))%Q).
    { apply qsum_pos; [|exact KP]. intros E. apply (f_equal (@length Q)) in E. rewrite map_length, LS in E. discriminate. }
    set (tot := qsum (map (fun i => nth i red 0%Q) sel)) in *.
    assert (LL : length (map (fun i => nth i (s_sites st) 0) sel) = length (map (fun c => (c / tot)%Q) (map (fun i => nth i red 0%Q) sel)))
      by (rewrite !map_length; reflexivity).
    assert (NDS : NoDup (map (fun i => nth i (s_sites st) 0) sel)).
    { apply NoDup_map_inj_in; [exact NS|]. intros x y X Y E. apply (NoDup_nth (s_sites st) 0); [apply (inv_nodup _ _ I)|now apply RS|now apply RS|exact E]. }
    split; [|split; [|split; [|split; [|split]]]].
    + intros E. apply (f_equal (@length (Z * Q))) in E. rewrite combine_length, <- LL, map_length, LS in E. discriminate.
    + rewrite map_fst_combine by exact LL. exact NDS.
    + rewrite combine_length, !map_length, LS. cbn. lia.
    + intros s f S. pose proof (in_combine_l _ _ _ _ S) as S1. pose proof (in_combine_r _ _ _ _ S) as S2. split.
      * apply in_map_iff in S2. destruct S2 as (x & <- & X). apply div_pos; [now apply KP|exact TP].
      * apply in_map_iff in S1. destruct S1 as (i & <- & X). apply (inv_sites _ _ I). apply nth_In. now apply RS.
    + rewrite map_snd_combine by exact LL. rewrite qsum_div. fold tot. field. lra.
    + intros (l & NL & LL2 & CV). exfalso. enough (length (s_sites st) <= length l)%nat by lia. apply NoDup_incl_length; [apply (inv_nodup _ _ I)|].
      intros s S. apply (inv_sites _ _ I) in S. destruct S as (R & d & D & <-). now apply CV.
  - assert (TP : (0 < s_total st)%Q).
    { rewrite (inv_total _ _ I), <- T. apply qsum_pos; [intros E; apply map_eq_nil in E; contradiction|]. intros x X. apply in_map_iff in X.
      destruct X as (s & <- & S). destruct (W s S) as [A B]. unfold cnt. rewrite A. exact B. }
    assert (LL : length (s_sites st) = length (map (fun c => (c / s_total st)%Q) (map cnt (s_sites st)))) by (rewrite !map_length; reflexivity).
    split; [|split; [|split; [|split; [|split]]]].
    + intros E. apply (f_equal (@length (Z * Q))) in E. rewrite combine_length, <- LL, Nat.min_id in E. cbn in E.
      apply length_zero_iff_nil in E. contradiction.
    + rewrite map_fst_combine by exact LL. apply (inv_nodup _ _ I).
    + rewrite combine_length, !map_length. lia.
    + intros s f S. pose proof (in_combine_l _ _ _ _ S) as S1. pose proof (in_combine_r _ _ _ _ S) as S2. split; [|now apply (inv_sites _ _ I)].
      apply in_map_iff in S2. destruct S2 as (x & <- & X). apply in_map_iff in X. destruct X as (z & <- & Z).
      apply div_pos; [|exact TP]. destruct (W z Z) as [A B]. unfold cnt. rewrite A. exact B.
    + rewrite map_snd_combine by exact LL. rewrite qsum_div, T, <- (inv_total _ _ I). field. lra.
    + intros _ s R. rewrite map_map. split.
      * rewrite (share_combine (fun x => (cnt x / s_total st)%Q)) by apply (inv_nodup _ _ I).
        destruct (in_dec Z.eq_dec s (s_sites st)) as [S|S].
        -- destruct (W s S) as [A _]. unfold cnt. rewrite A, (inv_total _ _ I). reflexivity.
        -- rewrite weight_zero; [unfold Qdiv; ring|]. intros X. apply S. apply (inv_sites _ _ I). auto.
      * intros f S. assert (EF : f = (cnt s / s_total st)%Q).
        { clear - S. revert S. generalize (s_sites st) as l. intros l S. induction l as [|x t IH]; [contradiction|]. cbn in S. destruct S as [S|S]; [congruence|now apply IH]. }
        subst f. pose proof (in_combine_l _ _ _ _ S) as S1. destruct (W s S1) as [A _]. unfold cnt. rewrite A, (inv_total _ _ I). reflexivity.
Qed.

Lemma gather_spec trans breaks : (forall e, In e trans -> (0 < snd e)%Q) -> StronglySorted lt breaks -> (forall b, In b breaks -> (b < length trans)%nat) ->
  (exists b, reached nx ny nz max_label labels v trans breaks b /\
     good_row (firstn (S b) trans) (gather nx ny nz max_label argsort labels v trans 0 breaks (search0 max_label))) \/
  ((forall b, In b breaks -> ~ hit nx ny nz max_label labels v (firstn (S b) trans)) /\
     gather nx ny nz max_label argsort labels v trans 0 breaks (search0 max_label) = []).
Proof.
  intros P SS RB. destruct (gather_from trans [] breaks (search0 max_label) P inv0 SS) as [(b & st & RE & IV & G)|X].
  - intros b B. specialize (RB b B). cbn. lia.
  - left. exists b. split; [exact RE|]. change (length (@nil (voxel * Q))) with 0%nat in G. rewrite G. cbn [app] in IV. apply condense_spec; [|exact IV|apply RE].
    intros e E. apply P. rewrite <- (firstn_skipn (S b) trans). apply in_or_app. now left.
  - right. exact X.
Qed.
End Gather.
