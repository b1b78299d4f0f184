(** Merging of the results of two spin systems. *)
From Coq Require Import Ascii String QArith Qround Qabs Lqa Setoid.
From Verif Require Import Base NearModel NearProofs ChargeModel ChargeProofs RootsModel UnionModel TextModel VaspModel VaspProofs SpinModel.
Local Open Scope Z_scope.

(** [x] stands for the [i]-th site of a structure, the first one equal to it. *)
Definition first_match (near : vec -> vec -> bool) (s : list site) (x : site) (i : nat) : Prop :=
  (i < List.length s)%nat /\ site_eqb near (nth i s x) x = true /\
  forall k, (k < i)%nat -> site_eqb near (nth k s x) x = false.

Section Merge.
Variable near : vec -> vec -> bool.
Notation index := (index near). Notation contains := (contains near). Notation site_eqb := (site_eqb near).

Lemma index_first s x i : index s x = Some i <-> first_match near s x i.
Proof.
  revert i. induction s as [|v r IH]; intros i; cbn [SpinModel.index].
  - split; [discriminate|]. intros [H _]. cbn in H. lia.
  - destruct (site_eqb v x) eqn:E.
    + split.
      * intros [= <-]. split; [cbn; lia|]. split; [exact E|lia].
      * intros (L & M & F). destruct i as [|i]; [reflexivity|]. specialize (F O ltac:(lia)). cbn in F. congruence.
    + destruct (index r x) as [j|] eqn:J.
      * split.
        -- intros [= <-]. destruct (proj1 (IH j) eq_refl) as (L & M & F). split; [cbn; lia|]. split; [exact M|].
           intros [|k] H; [exact E|]. cbn. apply F. lia.
        -- intros (L & M & F). destruct i as [|i]; [cbn in M; congruence|]. f_equal. f_equal.
           assert (H : first_match near r x i).
           { split; [cbn in L; lia|]. split; [exact M|]. intros k H. specialize (F (S k) ltac:(lia)). exact F. }
           apply IH in H. congruence.
      * split; [discriminate|]. intros (L & M & F). destruct i as [|i]; [cbn in M; congruence|].
        assert (H : first_match near r x i).
        { split; [cbn in L; lia|]. split; [exact M|]. intros k H. specialize (F (S k) ltac:(lia)). exact F. }
        apply IH in H. congruence.
Qed.

Lemma contains_index s x : contains s x = match index s x with Some _ => true | None => false end.
Proof.
  induction s as [|v r IH]; [reflexivity|]. cbn [SpinModel.index SpinModel.contains existsb]. destruct (site_eqb v x); [reflexivity|].
  cbn. fold (contains r x). rewrite IH. now destruct (index r x).
Qed.

Lemma index_lt s x i : index s x = Some i -> (i < List.length s)%nat.
Proof. intros H. apply index_first in H. apply H. Qed.

Lemma contains_in s x : contains s x = true <-> exists v, In v s /\ site_eqb v x = true.
Proof. unfold contains. rewrite existsb_exists. reflexivity. Qed.

(** One list of amounts. *)
Fixpoint one (up : list site) (ds : list (site * Q)) (acc : list Q) : list Q :=
  match ds with
  | [] => acc
  | (x, a) :: r => one up r (match index up x with Some i => add_at acc i a | None => acc ++ [a] end)
  end.

Lemma merge_sites_one up ds c v : (List.length up <= List.length c)%nat -> (List.length up <= List.length v)%nat ->
  merge_sites near up ds (c, v) = Done (one up (map (fun d => (fst d, fst (snd d))) ds) c, one up (map (fun d => (fst d, snd (snd d))) ds) v).
Proof.
  revert c v. induction ds as [|(x & a & b) r IH]; intros c v Hc Hv; [reflexivity|].
  cbn [merge_sites merge_site map fst snd one]. rewrite contains_index. destruct (index up x) as [i|] eqn:E.
  - pose proof (index_lt _ _ _ E). replace (i <? List.length c)%nat with true by (symmetry; apply Nat.ltb_lt; lia).
    replace (i <? List.length v)%nat with true by (symmetry; apply Nat.ltb_lt; lia). cbn. apply IH; rewrite add_at_length; assumption.
  - cbn. apply IH; rewrite app_length; cbn; lia.
Qed.

Definition alone (up : list site) (ds : list (site * Q)) : list (site * Q) :=
  filter (fun d => negb (contains up (fst d))) ds.

Lemma one_length up ds acc : List.length (one up ds acc) = (List.length acc + List.length (alone up ds))%nat.
Proof.
  revert acc. induction ds as [|(x & a) r IH]; intros acc; cbn [one alone filter fst]; [cbn; lia|].
  rewrite IH. rewrite contains_index. destruct (index up x); cbn [negb]; [rewrite add_at_length|rewrite app_length; cbn]; fold (alone up r); lia.
Qed.

Lemma one_sum up ds acc : (List.length up <= List.length acc)%nat -> (qsum (one up ds acc) == qsum acc + qsum (map snd ds))%Q.
Proof.
  revert acc. induction ds as [|(x & a) r IH]; intros acc H; cbn [one map snd]; [cbn; ring|].
  rewrite qsum_cons. destruct (index up x) as [i|] eqn:E.
  - pose proof (index_lt _ _ _ E). rewrite IH by (rewrite add_at_length; exact H). rewrite qsum_add_at by lia. ring.
  - rewrite IH by (rewrite app_length; lia). rewrite qsum_app. cbn. ring.
Qed.

Definition is_home (up : list site) (i : nat) (d : site * Q) : bool :=
  match index up (fst d) with Some k => Nat.eqb k i | None => false end.

Lemma one_old up ds acc i : (List.length up <= List.length acc)%nat -> (i < List.length acc)%nat ->
  (nth i (one up ds acc) 0 == nth i acc 0 + qsum_if snd (is_home up i) ds)%Q.
Proof.
  revert acc. induction ds as [|(x & a) r IH]; intros acc H Hi; cbn [one]; [unfold qsum_if; cbn; ring|].
  unfold qsum_if in *. cbn [map]. rewrite qsum_cons. unfold is_home at 1. cbn [fst snd]. destruct (index up x) as [k|] eqn:E.
  - pose proof (index_lt _ _ _ E). rewrite IH by (rewrite ?add_at_length; assumption). rewrite nth_add_at by lia.
    destruct (Nat.eqb_spec k i) as [->|]; ring.
  - rewrite IH by (rewrite app_length; cbn; lia). rewrite app_nth1 by exact Hi. ring.
Qed.

Lemma not_home up ds i : (List.length up <= i)%nat -> (qsum_if snd (is_home up i) ds == 0)%Q.
Proof.
  intros H. unfold qsum_if. rewrite <- (qsum_map_zero ds). apply qsum_map_ext. intros d _. unfold is_home.
  destruct (index up (fst d)) as [k|] eqn:E; [|reflexivity]. apply index_lt in E. destruct (Nat.eqb_spec k i); [lia|reflexivity].
Qed.

Lemma one_new up ds acc m : (List.length up <= List.length acc)%nat -> (m < List.length (alone up ds))%nat ->
  (nth (List.length acc + m) (one up ds acc) 0 == nth m (map snd (alone up ds)) 0)%Q.
Proof.
  revert acc m. induction ds as [|(x & a) r IH]; intros acc m H Hm; cbn [one]; [cbn in Hm; lia|].
  unfold alone in *. cbn [filter fst] in *. rewrite contains_index in *. destruct (index up x) as [k|] eqn:E; cbn [negb] in *.
  - rewrite <- (add_at_length acc k a). apply IH; [rewrite add_at_length|]; assumption.
  - cbn [map snd]. destruct m as [|m].
    + rewrite Nat.add_0_r. rewrite one_old by (rewrite app_length; cbn; lia). rewrite not_home by lia.
      rewrite app_nth2 by lia. rewrite Nat.sub_diag. cbn. ring.
    + cbn [nth]. replace (List.length acc + S m)%nat with (List.length (acc ++ [a]) + m)%nat by (rewrite app_length; cbn; lia).
      apply IH; [rewrite app_length; lia|]. cbn in Hm. lia.
Qed.
End Merge.
