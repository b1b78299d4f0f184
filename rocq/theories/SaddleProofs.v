(** The root masks of the saddle tests count connected parts. *)
From Coq Require Import QArith.
From Verif Require Import Base GridModel GridProofs NearProofs NeighModel RootsModel RootsSpec RootsProofs UnionModel UnionSpec UnionProofs VaspTop SaddleModel SaddleSpec SaddleBox.
Local Open Scope Z_scope.

Lemma count_seq (m : list bool) : length (filter (fun i => nth i m false) (seq 0 (length m))) = count_true m.
Proof.
  unfold count_true. induction m as [|b m IH]; [reflexivity|]. cbn [length seq filter]. rewrite <- seq_shift. change (nth 0 (b :: m) false) with b.
  assert (E : length (filter (fun i => nth i (b :: m) false) (map S (seq 0 (length m)))) = length (filter (fun b => b) m)).
  { rewrite <- IH. generalize (seq 0 (length m)). intros l. induction l as [|x l L]; [reflexivity|]. cbn [map filter]. change (nth (S x) (b :: m) false) with (nth x m false). destruct (nth x m false); cbn [length]; now rewrite L. }
  destruct b; cbn [length]; now rewrite E.
Qed.

Lemma conn_mentioned E x y : connected E x y -> x = y \/ (mentioned E x /\ mentioned E y).
Proof.
  induction 1 as [z|a b H|a b H IH|a b c H1 IH1 H2 IH2].
  - now left.
  - right. split; exists a, b; auto.
  - intuition.
  - intuition (subst; auto).
Qed.

(** One marked root for every group of mentioned elements. *)
Lemma mask_groups E p m : uf_inv E p -> mask_inv E p m ->
  exists reps, NoDup reps /\ length reps = count_true m /\ (forall r, In r reps -> mentioned E r) /\
    (forall e, mentioned E e -> exists r, In r reps /\ connected E e r) /\
    (forall r r', In r reps -> In r' reps -> connected E r r' -> r = r').
Proof.
  intros (G & A & B & C) [ML MM]. exists (filter (fun i => nth i m false) (seq 0 (length m))).
  assert (RB : forall i, nth i m false = true -> (i < length m)%nat) by (intros i H; destruct (Nat.lt_ge_cases i (length m)); [assumption|rewrite nth_overflow in H by assumption; discriminate]).
  assert (IN : forall i, In i (filter (fun i => nth i m false) (seq 0 (length m))) <-> nth i m false = true).
  { intros i. rewrite filter_In, in_seq. split; [tauto|]. intros H. split; [|exact H]. apply RB in H. lia. }
  split; [apply NoDup_filter, seq_NoDup|]. split; [apply count_seq|].
  assert (EB : forall e, mentioned E e -> (e < length p)%nat) by (intros e (x & y & I & [->| ->]); apply B in I; tauto).
  split; [|split].
  - intros r R. apply IN in R. assert (RL := RB r R). apply MM in R as (RR & e & Me & Re). assert (Ce : connected E e r) by (apply C; [now apply EB|lia|]; exists r; split; [exact Re|now constructor]).
    apply conn_mentioned in Ce as [<-|[_ H]]; assumption.
  - intros e Me. destruct (good_active_reaches p e G (A e (EB e Me))) as (r & R). assert (RR := reaches_root _ _ _ R). assert (RL : (r < length p)%nat) by (apply nth_error_Some; congruence). exists r. split.
    + apply IN, MM. split; [exact RR|]. exists e. auto.
    + apply C; [now apply EB|exact RL|]. exists r. split; [exact R|now constructor].
  - intros r r' R R' K. apply IN in R. apply IN in R'. assert (RL := RB r R). assert (RL' := RB r' R'). apply MM in R as [R _]. apply MM in R' as [R' _]. apply C in K; [|lia|lia]. destruct K as (s & K & K').
    rewrite (reaches_fun _ _ _ (reaches_end p r R) _ K). now rewrite (reaches_fun _ _ _ (reaches_end p r' R') _ K').
Qed.

(** From list positions to offsets. *)
Lemma groups_parts size (M : pos -> Prop) E reps : 0 <= size ->
  (forall s, M s -> in_range size s) ->
  (forall e, mentioned E e <-> (e < length (box size))%nat /\ M (at_idx size e)) ->
  (forall a b, In (a, b) E -> a = b \/ adjacent (at_idx size a) (at_idx size b)) ->
  (forall s t, M s -> M t -> adjacent s t -> let a := Z.to_nat (trans_to_idx s size) in let b := Z.to_nat (trans_to_idx t size) in In (a, b) E \/ In (b, a) E) ->
  NoDup reps -> (forall r, In r reps -> mentioned E r) -> (forall e, mentioned E e -> exists r, In r reps /\ connected E e r) ->
  (forall r r', In r reps -> In r' reps -> connected E r r' -> r = r') -> parts M (length reps).
Proof.
  intros P MR ME EA AE ND RM RC RD. set (f := fun s => Z.to_nat (trans_to_idx s size)).
  assert (FG : forall s, M s -> at_idx size (f s) = s) by (intros s S; apply at_idx_of; auto).
  assert (FM : forall s, M s -> mentioned E (f s)). { intros s S. apply ME. split; [|now rewrite FG]. rewrite box_length by exact P. pose proof (idx_range size s P (MR s S)). unfold f. lia. }
  assert (GF : forall e, mentioned E e -> f (at_idx size e) = e) by (intros e H; apply ME in H as [H _]; now apply idx_at).
  assert (CL : forall a b, connected E a b -> mentioned E a -> linked M (at_idx size a) (at_idx size b)).
  { intros a b K. assert (HH : (mentioned E a -> linked M (at_idx size a) (at_idx size b)) /\ (mentioned E b -> linked M (at_idx size b) (at_idx size a))).
    { induction K as [x|x y I|x y K IH|x y z K1 [IH1 IH1'] K2 [IH2 IH2']].
      - split; intros H; constructor; now apply ME in H.
      - assert (MX : mentioned E x) by (exists x, y; auto). assert (MY : mentioned E y) by (exists x, y; auto). apply ME in MX as [_ MX]. apply ME in MY as [_ MY]. destruct (EA x y I) as [<-|AD]; [split; intros _; now constructor|]. split; intros _; [apply linked_step with (at_idx size x); [now constructor|exact AD|exact MY]|apply linked_step with (at_idx size y); [now constructor|now apply adjacent_sym|exact MX]].
      - tauto.
      - split; intros H.
        + apply linked_trans with (at_idx size y); [now apply IH1|]. apply IH2. apply conn_mentioned in K1 as [<-|[_ K1]]; assumption.
        + apply linked_trans with (at_idx size y); [now apply IH2'|]. apply IH1'. apply conn_mentioned in K2 as [<-|[K2 _]]; assumption. }
    apply HH. }
  assert (LC : forall s t, linked M s t -> connected E (f s) (f t)).
  { intros s t K. induction K as [s S|s t u K IH AD U]; [constructor|]. apply linked_in in K as [_ T]. eapply conn_trans; [exact IH|]. destruct (AE t u T U AD) as [H|H]; [now constructor|apply conn_sym; now constructor]. }
  exists (map (at_idx size) reps). split; [|split; [apply map_length|split; [|split]]].
  - clear - ND GF RM. induction ND as [|r reps N ND IH]; [constructor|]. cbn. constructor; [|apply IH; intros x X; apply RM; now right]. intros I. apply in_map_iff in I as (x & E0 & X). apply N. rewrite <- (GF r), <- E0, (GF x); [exact X|apply RM; now right|apply RM; now left].
  - intros r R. apply in_map_iff in R as (e & <- & R). now apply ME, RM.
  - intros s S. destruct (RC (f s) (FM s S)) as (r & R & K). exists (at_idx size r). split; [now apply in_map|]. apply CL in K; [|now apply FM]. now rewrite FG in K.
  - intros r r' R R' K. apply in_map_iff in R as (e & <- & R). apply in_map_iff in R' as (e' & <- & R'). apply LC in K. rewrite !GF in K by (now apply RM). now rewrite (RD e e' R R' K).
Qed.

(** A mask as a list of pairs of equal elements. *)
Definition selfs (m : list bool) : list (nat * nat) := map (fun i => (i, i)) (filter (fun i => nth i m false) (seq 0 (length m))).
Lemma in_selfs m a b : In (a, b) (selfs m) <-> a = b /\ nth a m false = true.
Proof.
  unfold selfs. rewrite in_map_iff. split.
  - intros (x & E & I). injection E as <- <-. apply filter_In in I as [_ I]. auto.
  - intros [<- H]. exists a. split; [reflexivity|]. apply filter_In. split; [|exact H]. apply in_seq. destruct (Nat.lt_ge_cases a (length m)); [lia|]. rewrite nth_overflow in H by assumption. discriminate.
Qed.
Lemma selfs_inv n m : length m = n -> uf_inv (selfs m) (identity n) /\ mask_inv (selfs m) (identity n) m.
Proof.
  intros L. destruct (identity_inv n) as (G & A & B & C). split.
  - split; [exact G|]. split; [exact A|]. split.
    + intros x y I. apply in_selfs in I as [<- I]. assert (x < length m)%nat by (destruct (Nat.lt_ge_cases x (length m)); [assumption|rewrite nth_overflow in I by assumption; discriminate]). rewrite identity_length. lia.
    + intros i j I J. rewrite (C i j I J). split; intros K.
      * induction K as [x|x y []|x y K IH|x y z K1 IH1 K2 IH2]; [constructor|now apply conn_sym, IH|]. rewrite identity_length in *.
        assert (H : x = y /\ y = z). { clear - K1 K2. split; [clear K2|clear K1]. - induction K1 as [a|a b []|a b K IH|a b c K1 IH1 K2 IH2]; congruence. - induction K2 as [a|a b []|a b K IH|a b c K1 IH1 K2' IH2]; congruence. }
        destruct H as [-> ->]. constructor.
      * assert (H : i = j) by (clear - K; induction K as [a|a b H|a b K IH|a b c K1 IH1 K2 IH2]; [reflexivity|now apply in_selfs in H|congruence|congruence]). subst j. constructor.
  - split; [now rewrite identity_length|]. intros i.
    assert (ID := identity_reaches n).
    split.
    + intros H. assert (i < n)%nat by (subst n; destruct (Nat.lt_ge_cases i (length m)); [assumption|rewrite nth_overflow in H by assumption; discriminate]).
      assert (RT : nth_error (identity n) i = Some (Z.of_nat i)) by (now apply identity_nth).
      split; [exact RT|]. exists i. split; [exists i, i; split; [now apply in_selfs|now left]|now constructor].
    + intros (_ & e & (x & y & I & H) & R). apply ID in R. subst e. apply in_selfs in I as [<- I]. destruct H; now subst.
Qed.
