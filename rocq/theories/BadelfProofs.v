From Coq Require Import QArith Lqa Lia ZifyBool ZifyNat.
From Verif Require Import Base GridModel RootsModel UnionModel ChargeModel ChargeProofs CoordModel NearModel WeightModel RefineModel PlaneModel BadelfModel BadelfSpec.
Local Open Scope Z_scope.

(** ** The scan over the planes *)
Definition test (mind : Q) (p : vec) (x : part) : bool := negb (Qltb (- mind) (plane_dist p (pt_eqn x))).
Lemma test_spec mind p x : test mind p x = true <-> (plane_dist p (pt_eqn x) <= - mind)%Q.
Proof. unfold test. destruct (Qltb_spec (- mind) (plane_dist p (pt_eqn x))); cbn; split; intros; try lra; try reflexivity; discriminate. Qed.

Lemma same_part_sym x y : same_part x y -> same_part y x.
Proof. intros [A B]. split; auto. Qed.
Lemma same_part_trans x y z : same_part x y -> same_part y z -> same_part x z.
Proof. intros [A B] [C D]. split; congruence. Qed.

Section Scan.
Variable mind : Q.
Variable p : vec.
Variable planes : list part.
Hypothesis G : grouped planes.

Definition scan_result (r : option Z) : Prop :=
  match r with
  | Some s => exists i x, nth_error planes i = Some x /\ pt_site x = s /\ encloses mind p planes x /\
      forall j y, nth_error planes j = Some y -> encloses mind p planes y -> same_part x y \/ (i < j)%nat
  | None => forall x, In x planes -> ~ encloses mind p planes x
  end.

(** State after the planes [pre]: either nothing in [pre] encloses, or the last group is inside so far. *)
Definition scan_state (pre : list part) (site trans : Z) (assigned : bool) : Prop :=
  if assigned
  then exists a x b, pre = a ++ x :: b /\ pt_site x = site /\ pt_trans x = trans /\ (forall y, In y b -> same_part x y) /\
         (forall y, In y (x :: b) -> test mind p y = true) /\ (forall y, In y a -> ~ same_part x y /\ ~ encloses mind p planes y)
  else (forall y, In y pre -> ~ encloses mind p planes y) /\
       match rev pre with [] => site = -1 | x :: _ => pt_site x = site /\ pt_trans x = trans end.

Lemma not_enclosing x y : In y planes -> same_part x y -> test mind p y = false -> ~ encloses mind p planes x.
Proof. intros I S T E. specialize (E y I S). apply test_spec in E. congruence. Qed.

Lemma nth_error_mid {A} (a : list A) x b : nth_error (a ++ x :: b) (length a) = Some x.
Proof. rewrite nth_error_app2, Nat.sub_diag by lia. reflexivity. Qed.

(** Three planes in order. *)
Lemma grouped3 a x b y c z d : planes = a ++ x :: b ++ y :: c ++ z :: d -> same_part x z -> same_part x y.
Proof.
  intros E SP. apply (G (length a) (length a + S (length b))%nat (length a + S (length b) + S (length c))%nat x y z); [lia| | | |exact SP]; rewrite E.
  - apply nth_error_mid.
  - replace (a ++ x :: b ++ y :: c ++ z :: d) with ((a ++ x :: b) ++ y :: c ++ z :: d) by (rewrite <- app_assoc; reflexivity).
    replace (length a + S (length b))%nat with (length (a ++ x :: b)) by (rewrite app_length; reflexivity). apply nth_error_mid.
  - replace (a ++ x :: b ++ y :: c ++ z :: d) with ((a ++ x :: b ++ y :: c) ++ z :: d)
      by (rewrite <- app_assoc; cbn; rewrite <- app_assoc; reflexivity).
    replace (length a + S (length b) + S (length c))%nat with (length (a ++ x :: b ++ y :: c))
      by (rewrite app_length; cbn; rewrite app_length; cbn; lia). apply nth_error_mid.
Qed.

Lemma scan_spec : forall l pre site trans assigned, planes = pre ++ l -> (forall x, In x planes -> 0 <= pt_site x) ->
  scan_state pre site trans assigned -> scan_result (in_site mind p l site trans assigned).
Proof.
  induction l as [|x t IH]; intros pre site trans assigned E POS ST; cbn [in_site].
  - rewrite app_nil_r in E. subst pre. destruct assigned.
    + destruct ST as (a & x & b & E & S1 & S2 & SB & TB & NA). cbn. exists (length a), x.
      split; [rewrite E; apply nth_error_mid|]. split; [exact S1|].
      assert (EN : encloses mind p planes x).
      { intros y I S. apply test_spec. rewrite E in I. apply in_app_or in I. destruct I as [I|I]; [|now apply TB]. exfalso. exact (proj1 (NA y I) S). }
      split; [exact EN|]. intros j y J EY. destruct (Nat.lt_ge_cases j (length a)) as [L|L].
      * exfalso. rewrite E, nth_error_app1 in J by exact L. apply nth_error_In in J. exact (proj2 (NA y J) EY).
      * left. rewrite E, nth_error_app2 in J by exact L. apply nth_error_In in J. destruct J as [<-|J]; [split; reflexivity|now apply SB].
    + destruct ST as [N _]. exact N.
  - assert (IX : In x planes) by (rewrite E; apply in_or_app; right; now left).
    assert (E1 : planes = (pre ++ [x]) ++ t) by (rewrite <- app_assoc; exact E).
    destruct (negb (pt_site x =? site) || negb (pt_trans x =? trans)) eqn:K.
    + destruct assigned.
      * destruct ST as (a & y & b & EP & S1 & S2 & SB & TB & NA). cbn. exists (length a), y.
        assert (NXY : ~ same_part y x) by (intros [A1 A2]; lia).
        assert (EE : planes = a ++ y :: b ++ x :: t) by (rewrite E, EP, <- app_assoc; reflexivity).
        assert (NT : forall z, In z t -> ~ same_part y z).
        { intros z Z S. apply in_split in Z. destruct Z as (c & d & ->). apply NXY. apply (grouped3 a y b x c z d EE S). }
        split; [rewrite EE; apply nth_error_mid|]. split; [exact S1|]. split.
        -- intros z I S. apply test_spec. rewrite EE in I. apply in_app_or in I. destruct I as [I|I]; [exfalso; exact (proj1 (NA z I) S)|].
           change (In z ((y :: b) ++ x :: t)) in I. apply in_app_or in I. destruct I as [I|[<-|I]]; [now apply TB|contradiction|exfalso; exact (NT z I S)].
        -- intros j z J EZ. destruct (Nat.lt_ge_cases j (length a)) as [L|L].
           ++ exfalso. rewrite EE, nth_error_app1 in J by exact L. apply nth_error_In in J. exact (proj2 (NA z J) EZ).
           ++ destruct (Nat.eq_dec j (length a)) as [->|NJ]; [|right; lia]. rewrite EE, nth_error_mid in J. injection J as <-. left. split; reflexivity.
      * destruct ST as [N LST].
        assert (NP : forall y, In y pre -> ~ same_part x y).
        { intros y Y S. destruct (rev pre) as [|u r] eqn:R.
          - apply (f_equal (@rev part)) in R. rewrite rev_involutive in R. subst pre. contradiction.
          - apply (f_equal (@rev part)) in R. rewrite rev_involutive in R. cbn in R. rewrite R in Y, E. apply in_app_or in Y.
            assert (NU : ~ same_part x u) by (intros [A1 A2]; lia).
            destruct Y as [Y|[<-|[]]]; [|contradiction]. apply in_split in Y. destruct Y as (c & d & Y). rewrite Y in E.
            apply NU. apply (same_part_trans _ y); [exact S|]. apply (grouped3 c y d u [] x t); [|now apply same_part_sym].
            rewrite E. rewrite <- !app_assoc. cbn. reflexivity. }
        apply (IH (pre ++ [x])); [exact E1|exact POS|]. fold (test mind p x). unfold scan_state. destruct (test mind p x) eqn:T.
        -- exists pre, x, []. split; [reflexivity|]. split; [reflexivity|]. split; [reflexivity|]. split; [intros ? []|]. split.
           ++ intros y [<-|[]]. exact T.
           ++ intros y Y. split; [now apply NP|now apply N].
        -- split.
           ++ intros y Y. apply in_app_or in Y. destruct Y as [Y|[<-|[]]]; [now apply N|]. apply (not_enclosing x x IX); [split; reflexivity|exact T].
           ++ rewrite rev_app_distr. cbn. split; reflexivity.
    + assert (K1 : pt_site x = site) by lia. assert (K2 : pt_trans x = trans) by lia. destruct assigned; cbn [negb].
      * fold (test mind p x). apply (IH (pre ++ [x])); [exact E1|exact POS|].
        destruct ST as (a & y & b & EP & S1 & S2 & SB & TB & NA). assert (SXY : same_part y x) by (split; congruence).
        unfold scan_state. destruct (test mind p x) eqn:T.
        -- exists a, y, (b ++ [x]). split; [rewrite EP, <- app_assoc; reflexivity|]. split; [exact S1|]. split; [exact S2|]. split; [|split].
           ++ intros z Z. apply in_app_or in Z. destruct Z as [Z|[<-|[]]]; [now apply SB|exact SXY].
           ++ intros z Z. change (In z ((y :: b) ++ [x])) in Z. apply in_app_or in Z. destruct Z as [Z|[<-|[]]]; [now apply TB|exact T].
           ++ exact NA.
        -- split.
           ++ intros z Z. rewrite EP, <- app_assoc in Z. apply in_app_or in Z. destruct Z as [Z|Z]; [now apply NA|].
              apply (not_enclosing z x IX); [|exact T].
              change (In z ((y :: b) ++ [x])) in Z. apply in_app_or in Z. destruct Z as [[<-|Z]|[<-|[]]]; [exact SXY| |split; reflexivity].
              apply (same_part_trans _ y); [apply same_part_sym; now apply SB|exact SXY].
           ++ rewrite rev_app_distr. cbn. auto.
      * apply (IH (pre ++ [x])); [exact E1|exact POS|]. destruct ST as [N LST]. unfold scan_state. split.
        -- intros y Y. apply in_app_or in Y. destruct Y as [Y|[<-|[]]]; [now apply N|].
           destruct (rev pre) as [|u r] eqn:R; [specialize (POS x IX); lia|].
           intros EX. apply (N u); [apply in_rev; rewrite R; now left|]. intros z Z S. apply (EX z Z).
           apply (same_part_trans _ u); [split; destruct LST; congruence|exact S].
        -- rewrite rev_app_distr. cbn. auto.
Qed.

Lemma in_site_spec : (forall x, In x planes -> 0 <= pt_site x) -> scan_result (in_site mind p planes (-1) (-1) false).
Proof. intros POS. apply (scan_spec planes [] (-1) (-1) false); [reflexivity|exact POS|]. split; [intros ? []|reflexivity]. Qed.
End Scan.

(** ** The order of the planes *)
Lemma sorted_perm_nat : forall l1 l2, Permutation l1 l2 -> StronglySorted le l1 -> StronglySorted le l2 -> l1 = l2.
Proof.
  induction l1 as [|x t IH]; intros l2 P S1 S2.
  - apply Permutation_nil in P. congruence.
  - destruct l2 as [|y u]; [apply Permutation_sym, Permutation_nil in P; discriminate|].
    inversion S1 as [|? ? T1 F1]; subst. inversion S2 as [|? ? T2 F2]; subst. rewrite Forall_forall in F1, F2.
    assert (x = y).
    { assert (I1 : In x (y :: u)) by (eapply Permutation_in; [exact P|now left]).
      assert (I2 : In y (x :: t)) by (eapply Permutation_in; [apply Permutation_sym; exact P|now left]).
      destruct I1 as [I1|I1]; [congruence|]. destruct I2 as [I2|I2]; [congruence|]. specialize (F1 y I2). specialize (F2 x I1). lia. }
    subst y. f_equal. apply IH; auto. eapply Permutation_cons_inv; exact P.
Qed.

Lemma sorted_map {A B} (f : A -> B) (R : A -> A -> Prop) (T : B -> B -> Prop) : (forall a b, R a b -> T (f a) (f b)) ->
  forall l, StronglySorted R l -> StronglySorted T (map f l).
Proof.
  intros H. induction l as [|x t IH]; intros S; [constructor|]. inversion S as [|? ? ST F]; subst. constructor; [now apply IH|].
  rewrite Forall_forall in F. apply Forall_forall. intros y Y. apply in_map_iff in Y. destruct Y as (a & <- & Y). now apply H, F.
Qed.

Lemma sorted_nth {A} (R : A -> A -> Prop) : forall l i j x y, StronglySorted R l -> (i < j)%nat ->
  nth_error l i = Some x -> nth_error l j = Some y -> R x y.
Proof.
  induction l as [|a t IH]; intros [|i] [|j] x y S L X Y; try lia; try discriminate; inversion S as [|? ? ST F]; subst; cbn in X, Y.
  - injection X as <-. rewrite Forall_forall in F. apply F. now apply nth_error_In in Y.
  - apply (IH i j x y ST); [lia|exact X|exact Y].
Qed.

Lemma map_nth_seq {A} (d : A) l : map (fun i => nth i l d) (seq 0 (length l)) = l.
Proof.
  induction l as [|x t IH]; [reflexivity|]. cbn. f_equal. rewrite <- seq_shift, map_map. exact IH.
Qed.

Definition full_part (root : Q -> Q) (m : mat) (w : wrapped) : part :=
  Part (Z.of_nat (w_site w)) (Z.of_nat (w_trans w)) (plane_eqn root m w).

Lemma order_combine root m (g : nat -> wrapped) : forall ws perm, map w_site ws = map (fun i => w_site (g i)) perm ->
  map (fun '(w, i) => let x := g i in Part (Z.of_nat (w_site w)) (Z.of_nat (w_trans x)) (plane_eqn root m x)) (combine ws perm)
  = map (fun i => full_part root m (g i)) perm.
Proof.
  induction ws as [|w ws IH]; intros [|i perm] E; try discriminate; [reflexivity|]. cbn in E. injection E as E1 E2.
  cbn [combine map]. f_equal; [unfold full_part; now rewrite E1|exact (IH perm E2)].
Qed.

Lemma order_spec root m perm ws : lexsorts perm ws -> StronglySorted le (map w_site ws) ->
  order_planes root m perm ws = map (fun i => full_part root m (nth i ws no_plane)) perm.
Proof.
  intros [P S] SW. unfold order_planes. apply order_combine. rewrite <- map_map with (f := fun i => nth i ws no_plane) (g := w_site).
  apply sorted_perm_nat; [|exact SW|].
  - apply Permutation_map. rewrite <- (map_nth_seq no_plane ws) at 1. apply Permutation_map. now apply Permutation_sym.
  - apply (sorted_map w_site key_le); [|exact S]. intros a b [H|[H _]]; lia.
Qed.

Lemma order_perm root m perm ws : lexsorts perm ws -> StronglySorted le (map w_site ws) ->
  Permutation (order_planes root m perm ws) (map (full_part root m) ws).
Proof.
  intros L SW. rewrite (order_spec root m perm ws L SW). destruct L as [P _].
  rewrite <- (map_map (fun i => nth i ws no_plane) (full_part root m)). apply Permutation_map.
  transitivity (map (fun i => nth i ws no_plane) (seq 0 (length ws))); [now apply Permutation_map|]. now rewrite map_nth_seq.
Qed.

Lemma order_grouped root m perm ws : lexsorts perm ws -> StronglySorted le (map w_site ws) -> grouped (order_planes root m perm ws).
Proof.
  intros L SW. rewrite (order_spec root m perm ws L SW). destruct L as [_ S].
  rewrite <- (map_map (fun i => nth i ws no_plane) (full_part root m)). set (l := map (fun i => nth i ws no_plane) perm) in *.
  intros i j k x y z [IJ JK] X Y Z [E1 E2]. rewrite nth_error_map in X, Y, Z.
  destruct (nth_error l i) as [a|] eqn:A; [|discriminate]. destruct (nth_error l j) as [b|] eqn:B; [|discriminate].
  destruct (nth_error l k) as [c|] eqn:C; [|discriminate]. cbn in X, Y, Z. injection X as <-. injection Y as <-. injection Z as <-.
  cbn in E1, E2. pose proof (sorted_nth key_le l i j a b S IJ A B) as K1. pose proof (sorted_nth key_le l j k b c S JK B C) as K2.
  unfold key_le in K1, K2. unfold same_part. cbn. destruct K1 as [K1|[K1 [K1'|[K1' _]]]], K2 as [K2|[K2 [K2'|[K2' _]]]]; lia.
Qed.

(** ** Adding to an array *)
Lemma np_add_spec l i x : 0 <= i < Z.of_nat (length l) -> np_add l i x = Done (add_at l (Z.to_nat i) x).
Proof.
  intros H. unfold np_add, np_get, np_set. rewrite !np_idx_pos by exact H. rewrite (nth_error_nth_lt l (Z.to_nat i) 0%Q) by lia. reflexivity.
Qed.
Lemma np_add_last l x : (0 < length l)%nat -> np_add l (-1) x = Done (add_at l (length l - 1) x).
Proof.
  intros H. unfold np_add, np_get, np_set, np_idx. replace ((0 <=? -1) && (-1 <? Z.of_nat (length l))) with false by lia.
  replace ((- Z.of_nat (length l) <=? -1) && (-1 <? 0)) with true by lia.
  replace (Z.to_nat (-1 + Z.of_nat (length l))) with (length l - 1)%nat by lia. cbn [oget].
  rewrite (nth_error_nth_lt l (length l - 1) 0%Q) by lia. reflexivity.
Qed.

Lemma in_totals_spec data labels num : forall l ch vo, length ch = num -> length vo = num ->
  (forall v, In v l -> -1 <= rd3 labels v < Z.of_nat num) ->
  exists ch' vo', in_totals data labels l ch vo = Done (ch', vo') /\ length ch' = num /\ length vo' = num /\
    forall s, (s < num)%nat ->
      (nth s ch' 0 == nth s ch 0 + site_sum (rd3 data) (rd3 labels) (Z.of_nat s) l)%Q /\
      (nth s vo' 0 == nth s vo 0 + site_sum (fun _ => 1) (rd3 labels) (Z.of_nat s) l)%Q.
Proof.
  induction l as [|v t IH]; intros ch vo LC LV R; cbn [in_totals].
  - exists ch, vo. repeat split; auto; unfold site_sum; cbn; ring.
  - assert (RT : forall w, In w t -> -1 <= rd3 labels w < Z.of_nat num) by (intros; apply R; now right).
    pose proof (R v (or_introl eq_refl)) as RV. destruct (rd3 labels v =? -1) eqn:E.
    + destruct (IH ch vo LC LV RT) as (ch' & vo' & D & L1 & L2 & S). exists ch', vo'. split; [exact D|]. split; [exact L1|]. split; [exact L2|].
      intros s Hs. destruct (S s Hs) as [A B]. rewrite A, B. unfold site_sum. cbn [map]. rewrite !qsum_cons.
      replace (rd3 labels v =? Z.of_nat s) with false by lia. split; ring.
    + rewrite !np_add_spec by lia. cbn [obind].
      destruct (IH (add_at ch (Z.to_nat (rd3 labels v)) (rd3 data v)) (add_at vo (Z.to_nat (rd3 labels v)) 1%Q)) as (ch' & vo' & D & L1 & L2 & S);
        [rewrite add_at_length; exact LC|rewrite add_at_length; exact LV|exact RT|].
      exists ch', vo'. split; [exact D|]. split; [exact L1|]. split; [exact L2|]. intros s Hs. destruct (S s Hs) as [A B]. rewrite A, B.
      rewrite !nth_add_at by lia. unfold site_sum. cbn [map]. rewrite !qsum_cons.
      destruct (rd3 labels v =? Z.of_nat s) eqn:K.
      * replace (Nat.eqb (Z.to_nat (rd3 labels v)) s) with true by lia. replace (Z.to_nat (rd3 labels v)) with s by lia. split; ring.
      * replace (Nat.eqb (Z.to_nat (rd3 labels v)) s) with false by lia. split; ring.
Qed.
