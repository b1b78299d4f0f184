(** Which neighbours the labelling can store for a feature. *)
From Verif Require Import Base RootsModel UnionModel LabelsModel NodesModel ChargeModel PlaneModel GobjModel MarkModel.
Local Open Scope Z_scope.
Section Kinds.
Variable w : world.
Definition kind (i : nat) (c : list Z) : Prop :=
  c = [nearest_atom w i] \/ c = w_cnn w i \/ exists a b, w_bond w i = (true, (a, b)) /\ c = [a; b].
Definition kinds (st : lab) : Prop := forall i c, l_coord st i = Some c -> kind i c.
Lemma kinds_same st st' : l_coord st' = l_coord st -> kinds st -> kinds st'.
Proof. unfold kinds. intros ->. auto. Qed.
Lemma kinds_put st st' i c : l_coord st' = put (l_coord st) i c -> (forall l, c = Some l -> kind i l) -> kinds st -> kinds st'.
Proof. unfold kinds, put. intros -> H K j l. destruct (Nat.eqb_spec i j) as [<-|N]; [apply H|apply K]. Qed.
Lemma kinds_type st i t : kinds st -> kinds (set_type st i t).
Proof. now apply kinds_same. Qed.
Lemma kinds_coord st i c : kind i c -> kinds st -> kinds (set_coord st i (Some c)).
Proof. intros H. apply (kinds_put st _ i (Some c)); [reflexivity|]. now intros l [= <-]. Qed.
Lemma kinds_none st i : kinds st -> kinds (set_coord st i None).
Proof. apply (kinds_put st _ i None); [reflexivity|discriminate]. Qed.
Lemma kinds_read st i : kinds st -> kinds (fst (coord_indices w st i)) /\ kind i (snd (coord_indices w st i)).
Proof.
  intro K. unfold coord_indices. destruct (l_coord st i) as [c|] eqn:E; [split; [exact K|now apply K]|]. cbn [fst snd].
  assert (H : kind i (if atomic (l_type st i) then [nearest_atom w i] else w_cnn w i)) by (destruct (atomic _); [now left|right; now left]).
  split; [now apply kinds_coord|exact H].
Qed.
Lemma kinds_fold {A} (f : lab -> A -> lab) l : (forall st a, kinds st -> kinds (f st a)) -> forall st, kinds st -> kinds (fold_left f l st).
Proof. intro H. induction l as [|a l IH]; intros st K; [exact K|]. apply IH, H, K. Qed.
Lemma kinds_fold2 {A B} (f : lab * B -> A -> lab * B) l : (forall r a, kinds (fst r) -> kinds (fst (f r a))) -> forall r, kinds (fst r) -> kinds (fst (fold_left f l r)).
Proof. intro H. induction l as [|a l IH]; intros st K; [exact K|]. apply IH, H, K. Qed.
Ltac run1 := match goal with
  | H : obind ?x _ = Done _ |- _ => destruct x eqn:?; cbn [obind] in H; try discriminate H
  | H : Done _ = Done _ |- _ => injection H as <- || injection H as <- <-
  | H : (let '(_, _) := ?x in _) = Done _ |- _ => destruct x eqn:?
  | H : (if ?x then _ else _) = Done _ |- _ => destruct x eqn:?; try discriminate H
  | H : match ?x with _ => _ end = Done _ |- _ => destruct x eqn:?; try discriminate H
  end.
Lemma kinds_cores s st : kinds st -> kinds (mark_cores w s st).
Proof. apply kinds_fold. intros st1 i K. unfold mark_core. destruct (w_cage w i); [exact K|]. destruct (negb _); [exact K|]. destruct (Qle_bool _ _); [now apply kinds_type|exact K]. Qed.
Lemma kinds_test fuel s st i st' b : shell_test fuel s st i = Done (st', b) -> kinds st -> kinds st'.
Proof. unfold shell_test. intros H K. repeat run1; auto; now apply (kinds_same st). Qed.
Lemma kinds_tests fuel s l : forall st st' r, shell_tests fuel s st l = Done (st', r) -> kinds st -> kinds st'.
Proof.
  induction l as [|i l IH]; intros st st' r H K; cbn [shell_tests] in H; [now injection H as <- <-|]. repeat run1; eapply IH; eauto; eapply kinds_test; eauto.
Qed.
Lemma kinds_combine fuel s st i st' : combine_shell fuel s st i = Done st' -> kinds st -> kinds st'.
Proof. unfold combine_shell. intros H K. repeat run1; auto. eapply kinds_put; [reflexivity|discriminate|exact K]. Qed.
Lemma kinds_combines fuel s l : forall st st', combine_shells fuel s st l = Done st' -> kinds st -> kinds st'.
Proof. induction l as [|i l IH]; intros st st' H K; cbn [combine_shells] in H; [now injection H as <-|]. repeat run1; eapply IH; eauto; eapply kinds_combine; eauto. Qed.
Lemma kinds_shells fuel s st st' : mark_shells fuel s st = Done st' -> kinds st -> kinds st'.
Proof.
  unfold mark_shells. intros H K. repeat run1; eapply kinds_combines; eauto; eapply kinds_tests; eauto; apply kinds_fold; auto; intros st1 i K1; destruct (one_atom st1 i); auto; now apply kinds_type.
Qed.
Lemma kinds_bond fuel s st i st' : mark_bond fuel w s st i = Done st' -> kinds st -> kinds st'.
Proof.
  unfold mark_bond. intros H K. pose proof (kinds_read st i K) as [KR _]. destruct (w_bond w i) as [t [a0 a1]] eqn:EB.
  assert (P : t = true -> kind i [a0; a1]) by (intros ->; right; right; exists a0, a1; rewrite EB; auto).
  destruct (coord_indices w st i) as [st1 c] eqn:EC. cbn [fst] in KR.
  repeat run1; subst; auto; repeat (apply kinds_coord || apply kinds_type); auto; apply P; now destruct t.
Qed.
Lemma kinds_bonds fuel s l : forall st st', mark_bonds fuel w s st l = Done st' -> kinds st -> kinds st'.
Proof. induction l as [|i l IH]; intros st st' H K; cbn [mark_bonds] in H; [now injection H as <-|]. repeat run1; eapply IH; eauto; eapply kinds_bond; eauto. Qed.
Lemma kinds_ionic s r c : kinds (fst r) -> kinds (fst (lone_ionic w s r c)).
Proof. destruct r as [st k]. cbn [fst]. intro K. unfold lone_ionic. destruct (_ || _); [exact K|]. destruct (Qltb _ _); [now apply kinds_type|exact K]. Qed.
Lemma kinds_bonded s d r c : kinds (fst r) -> kinds (fst (lone_bonded w s d r c)).
Proof.
  destruct r as [st k]. cbn [fst]. intro K. unfold lone_bonded. destruct (_ || _); [exact K|]. pose proof (kinds_read st c K) as [KR _].
  destruct (coord_indices w st c) as [st1 co]. cbn [fst] in KR. destruct (Nat.ltb _ _); [exact KR|]. destruct (Qltb _ _); [|exact KR]. now apply kinds_none, kinds_type.
Qed.
Lemma kinds_lone fuel s r d r' : lone_step fuel w s r d = Done r' -> kinds (fst r) -> kinds (fst r').
Proof.
  unfold lone_step. intros H K. destruct r as [st k]. cbn [fst] in K. repeat run1; subst; cbn [fst]; auto.
  - apply kinds_fold; auto using kinds_type.
  - apply kinds_fold2; auto. intros. now apply kinds_ionic.
  - apply kinds_fold2; auto. intros. now apply kinds_bonded.
Qed.
Lemma kinds_lones fuel s l : forall r r', lone_steps fuel w s r l = Done r' -> kinds (fst r) -> kinds (fst r').
Proof. induction l as [|i l IH]; intros st st' H K; cbn [lone_steps] in H; [now injection H as <-|]. repeat run1; eapply IH; eauto; eapply kinds_lone; eauto. Qed.
Lemma kinds_measures l : forall st st', measures w st l = Done st' -> kinds st -> kinds st'.
Proof. induction l as [|i l IH]; intros st st' H K; cbn [measures] in H; [now injection H as <-|]. unfold measure in H. repeat run1; eapply IH; eauto; now apply (kinds_same st). Qed.
Lemma kinds_bares fuel s l : forall st st', mark_bares fuel w s st l = Done st' -> kinds st -> kinds st'.
Proof. induction l as [|i l IH]; intros st st' H K; cbn [mark_bares] in H; [now injection H as <-|]. unfold mark_bare in H. repeat run1; eapply IH; eauto; now apply kinds_type. Qed.
Lemma kinds_label fuel argsort s st st' : label_features fuel argsort w s st = Done st' -> kinds st -> kinds st'.
Proof.
  unfold label_features, mark_covalent, mark_lonepairs, mark_metallic_or_bare. intros H K.
  repeat run1; eapply kinds_bares; eauto; eapply kinds_measures; eauto; eapply (kinds_lones _ _ _ (_, _)); eauto; cbn [fst]; eapply kinds_bonds; eauto; eapply kinds_shells; eauto; now apply kinds_cores.
Qed.
End Kinds.
