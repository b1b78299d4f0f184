(** Lemmas about the labelling of features. *)
From Coq Require Import QArith.
From Verif Require Import Base RootsModel UnionModel LabelsModel NodesModel NodesSpec NodesProofs NodesEdit NodesTop
  ChargeModel ChargeProofs PlaneModel GobjModel GobjProps CoordMerge MarkModel.
Local Open Scope Z_scope.

Lemma ftype_eqb_spec a b : ftype_eqb a b = true <-> a = b.
Proof. destruct a, b; cbn; split; congruence. Qed.
Lemma ftype_eqb_false a b : ftype_eqb a b = false <-> a <> b.
Proof. rewrite <- ftype_eqb_spec. destruct (ftype_eqb a b); split; congruence. Qed.
Lemma put_same {A} (f : nat -> A) i x : put f i x i = x.
Proof. unfold put. now rewrite Nat.eqb_refl. Qed.
Lemma put_other {A} (f : nat -> A) i x j : i <> j -> put f i x j = f j.
Proof. intro H. unfold put. now rewrite (proj2 (Nat.eqb_neq i j) H). Qed.

Lemma in_irreducible st i : In i (irreducible_nodes st) <-> In i (g_nodes (l_g st)) /\ ~ reducible (l_g st) i.
Proof. unfold irreducible_nodes, reducible. rewrite filter_In, negb_true_iff. destruct (n_red _); intuition congruence. Qed.
Lemma in_reducible st i : In i (reducible_nodes st) <-> In i (g_nodes (l_g st)) /\ reducible (l_g st) i.
Proof. unfold reducible_nodes, reducible. now rewrite filter_In. Qed.
Lemma in_unassigned st i : In i (unassigned_nodes st) <->
  In i (g_nodes (l_g st)) /\ ~ reducible (l_g st) i /\ l_type st i = Unknown.
Proof.
  unfold unassigned_nodes, reducible. rewrite filter_In, andb_true_iff, negb_true_iff, ftype_eqb_spec.
  destruct (n_red _); intuition congruence.
Qed.

(** ** Ancestors *)
Inductive chain (g : graph) : nat -> list nat -> Prop :=
| chain_nil i : parent_of g i = None -> chain g i []
| chain_cons i p l : parent_of g i = Some p -> chain g p l -> chain g i (p :: l).

Lemma ancestors_chain fuel g : forall i l, ancestors fuel g i = Done l -> chain g i l.
Proof.
  induction fuel as [|f IH]; intros i l E; [discriminate|]. cbn [ancestors] in E.
  destruct (n_parent (g_heap g i)) as [p|] eqn:P.
  - destruct (ancestors f g p) as [t| |] eqn:T; try discriminate. injection E as <-. constructor; [exact P|now apply IH].
  - injection E as <-. now constructor.
Qed.
Lemma ancestors_done g : well_formed g -> forall fuel i, In i (g_nodes g) -> (pos (g_nodes g) i < fuel)%nat ->
  exists l, ancestors fuel g i = Done l.
Proof.
  intros W. induction fuel as [|f IH]; intros i Hi L; [lia|]. cbn [ancestors].
  destruct (n_parent (g_heap g i)) as [p|] eqn:P; [|now exists []].
  destruct (wf_parent g W i p Hi P) as (Hp & _ & B & _). pose proof (before_pos _ _ _ (wf_nodup g W) B).
  destruct (IH p Hp ltac:(lia)) as (t & ->). now exists (p :: t).
Qed.
Lemma chain_in g i l : chain g i l -> forall a, In a l <-> ancestor g a i.
Proof.
  induction 1 as [i P|i p l P C IH]; intro a.
  - split; [intros []|]. intro A. inversion A; unfold parent_of in *; congruence.
  - cbn [In]. rewrite IH. split.
    + intros [<-|A]; [now constructor|]. econstructor 2; eauto.
    + intro A. inversion A as [x Q|x q Q A']; subst; rewrite P in Q; injection Q as <-; auto.
Qed.
Lemma chain_after g i l1 p l2 : chain g i (l1 ++ p :: l2) -> chain g p l2.
Proof.
  revert i. induction l1 as [|x t IH]; intros i C; cbn [app] in C; inversion C; subst; [assumption|]. now apply (IH x).
Qed.
Lemma ancestor_trans g a b c : ancestor g a b -> ancestor g b c -> ancestor g a c.
Proof. intros A B. induction B as [c P|c q P B IH]; econstructor 2; eauto. Qed.

(** The nearest ancestor with a property. *)
Definition innermost (g : graph) (P : nat -> Prop) (i p : nat) : Prop :=
  ancestor g p i /\ P p /\ forall q, ancestor g q i -> P q -> q = p \/ ancestor g q p.

Lemma find_innermost g i l (f : nat -> bool) (P : nat -> Prop) : (forall x, f x = true <-> P x) -> chain g i l ->
  (forall p, find f l = Some p -> innermost g P i p) /\ (find f l = None -> forall q, ancestor g q i -> ~ P q).
Proof.
  intros F C. split.
  - intros p E.
    assert (X : exists l1 l2, l = l1 ++ p :: l2 /\ f p = true /\ forall x, In x l1 -> f x = false).
    { clear C. induction l as [|x t IH]; [discriminate|]. cbn [find] in E. destruct (f x) eqn:Fx.
      - injection E as ->. exists [], t. repeat split; auto. intros y [].
      - destruct (IH E) as (l1 & l2 & -> & Fp & H). exists (x :: l1), l2. repeat split; auto. intros y [->|Hy]; auto. }
    destruct X as (l1 & l2 & -> & Fp & H). split; [|split].
    + apply (chain_in g i _ C). apply in_or_app. right. now left.
    + now apply F.
    + intros q A Pq. apply (chain_in g i _ C) in A. apply in_app_iff in A as [A|[A|A]].
      * apply F in Pq. rewrite (H q A) in Pq. discriminate.
      * now left.
      * right. apply (chain_in g p l2); [now apply (chain_after g i l1)|exact A].
  - intros N q A Pq. apply F in Pq. apply (chain_in g i _ C) in A. pose proof (find_none _ _ N q A). congruence.
Qed.
Lemma innermost_unique g P i p q : well_formed g -> In i (g_nodes g) -> innermost g P i p -> innermost g P i q -> p = q.
Proof.
  intros W Hi (A1 & P1 & U1) (A2 & P2 & U2). destruct (U1 q A2 P2) as [->|B1]; [reflexivity|].
  destruct (U2 p A1 P1) as [->|B2]; [reflexivity|]. exfalso.
  apply (no_self_ancestor g p W); [now apply (ancestor_in g p i)|]. eapply ancestor_trans; eauto.
Qed.

(** ** Last step *)
Lemma measures_spec w : forall l st st', NoDup l -> measures w st l = Done st' ->
  l_g st' = l_g st /\ l_type st' = l_type st /\ l_atoms st' = l_atoms st /\
  (forall i, ~ In i l -> l_sphere st' i = l_sphere st i /\ l_beyond st' i = l_beyond st i) /\
  (forall i, In i l -> argmin (beyond_list w i) = Some (l_sphere st' i) /\ l_beyond st' i = qmin_list (beyond_list w i)).
Proof.
  induction l as [|i t IH]; intros st st' N E; cbn [measures] in E.
  { injection E as <-. repeat (split; [reflexivity|]). split; [auto|]. intros ? []. }
  unfold measure in E. destruct (argmin (beyond_list w i)) as [a|] eqn:A; cbn [oget obind] in E; [|discriminate].
  inversion N as [|x y Ni N']; subst. destruct (IH _ _ N' E) as (G & T & AT & O & I). cbn in *.
  split; [exact G|]. split; [exact T|]. split; [exact AT|]. split.
  - intros j H. destruct (O j) as (O1 & O2); [tauto|]. rewrite O1, O2. rewrite !put_other by tauto. auto.
  - intros j [<-|H]; [|now apply I]. destruct (O i Ni) as (O1 & O2). rewrite O1, O2, !put_same. auto.
Qed.
Lemma measures_done w : forall l st, (forall i, In i l -> beyond_list w i <> []) -> exists st', measures w st l = Done st'.
Proof.
  induction l as [|i t IH]; intros st H; [now exists st|]. cbn [measures]. unfold measure.
  destruct (beyond_list w i) as [|q b] eqn:B; [exfalso; apply (H i); [now left|exact B]|]. cbn [argmin oget obind].
  apply IH. intros j Hj. apply H. now right.
Qed.

Definition open (t : ftype) : Prop := t = Metallic \/ t = BareElectron \/ t = Unknown.
Lemma open_dec t : ftype_eqb t Metallic || ftype_eqb t BareElectron || ftype_eqb t Unknown = true <-> open t.
Proof. unfold open. destruct t; cbn; intuition congruence. Qed.

Definition bare_test (w : world) (s : settings) (g : graph) (beyond : nat -> Q) (i : nat) (depth : Q) : bool :=
  Qltb (s_elf s) (n_max (g_heap g i)) && Qltb (s_depth s) depth && Qltb (s_charge s) (charge w g i) &&
  Qltb (s_volume s) (volume w g i) && Qltb (s_beyond s) (beyond i).
Lemma mark_bares_spec fuel w s : forall l st st', NoDup l -> mark_bares fuel w s st l = Done st' ->
  l_g st' = l_g st /\ l_beyond st' = l_beyond st /\ l_sphere st' = l_sphere st /\ l_atoms st' = l_atoms st /\
  (forall i, ~ In i l -> l_type st' i = l_type st i) /\
  (forall i, In i l -> (~ open (l_type st i) -> l_type st' i = l_type st i) /\
    (open (l_type st i) -> exists depth, depth_to_infinite fuel (l_g st) i = Done depth /\
       l_type st' i = if bare_test w s (l_g st) (l_beyond st) i depth then BareElectron else MultiCentered)).
Proof.
  induction l as [|i t IH]; intros st st' N E; cbn [mark_bares] in E.
  { injection E as <-. do 5 (split; [reflexivity|]). intros ? []. }
  inversion N as [|x y Ni N']; subst. unfold mark_bare in E.
  destruct (negb (ftype_eqb (l_type st i) Metallic || ftype_eqb (l_type st i) BareElectron || ftype_eqb (l_type st i) Unknown)) eqn:O.
  - cbn [obind] in E. destruct (IH _ _ N' E) as (G & B & SP & AT & OU & IN). repeat (split; [assumption|]). split.
    + intros j H. apply OU. intro. apply H. now right.
    + intros j [<-|H]; [|now apply IN]. split; [intros _; now apply OU|]. intro X. apply open_dec in X. rewrite X in O. discriminate.
  - apply negb_false_iff, open_dec in O. destruct (depth_to_infinite fuel (l_g st) i) as [d| |] eqn:D; cbn [obind] in E; try discriminate.
    destruct (IH _ _ N' E) as (G & B & SP & AT & OU & IN). cbn in G, B, SP, AT, OU, IN. repeat (split; [assumption|]). split.
    + intros j H. rewrite OU by (intro; apply H; now right). rewrite put_other; [reflexivity|]. intros ->. apply H. now left.
    + intros j [<-|H].
      * split; [tauto|]. intros _. exists d. split; [exact D|]. rewrite (OU i Ni), put_same. reflexivity.
      * destruct (IN j H) as (I1 & I2). assert (NE : i <> j) by (intros ->; contradiction). rewrite put_other in I1, I2 by exact NE. auto.
Qed.

(** [depth_to_infinite] in terms of ancestors. *)
Inductive depth_spec (g : graph) (i : nat) (q : Q) : Prop :=
| depth_self : n_infinite (g_heap g i) = true -> q = 0%Q -> depth_spec g i q
| depth_anc a : n_infinite (g_heap g i) = false -> innermost g (fun a => n_infinite (g_heap g a) = true) i a ->
    q = (n_max (g_heap g i) - n_max (g_heap g a))%Q -> depth_spec g i q
| depth_root a : n_infinite (g_heap g i) = false -> (forall a, ancestor g a i -> n_infinite (g_heap g a) = false) ->
    ancestor g a i -> parent_of g a = None -> q = (n_max (g_heap g i) - n_max (g_heap g a))%Q -> depth_spec g i q.

Lemma chain_last g i l a t : chain g i l -> rev l = a :: t -> ancestor g a i /\ parent_of g a = None.
Proof.
  intros C E. assert (X : l = rev t ++ [a]) by (rewrite <- (rev_involutive l), E; reflexivity). subst l.
  split; [apply (chain_in g i _ C); apply in_or_app; right; now left|].
  apply chain_after in C. inversion C; assumption.
Qed.
Lemma depth_to_infinite_spec fuel g i q : depth_to_infinite fuel g i = Done q -> depth_spec g i q.
Proof.
  unfold depth_to_infinite. destruct (n_infinite (g_heap g i)) eqn:I; [intro E; injection E as <-; now apply depth_self|].
  destruct (ancestors fuel g i) as [l| |] eqn:A; try discriminate. cbn [obind]. apply ancestors_chain in A.
  destruct (find_innermost g i l (fun a => n_infinite (g_heap g a)) (fun a => n_infinite (g_heap g a) = true) ltac:(reflexivity) A) as (F1 & F2).
  destruct (find (fun a => n_infinite (g_heap g a)) l) as [a|] eqn:F.
  - cbn [oget obind]. intro E. injection E as <-. apply (depth_anc g i _ a); auto.
  - destruct (rev l) as [|a t] eqn:R; cbn [oget obind]; [discriminate|]. intro E. injection E as <-.
    destruct (chain_last g i l a t A R) as (L1 & L2). apply (depth_root g i _ a); auto.
    intros b B. specialize (F2 eq_refl b B). destruct (n_infinite (g_heap g b)); [now destruct F2|reflexivity].
Qed.
Lemma depth_spec_unique g i q q' : well_formed g -> In i (g_nodes g) -> depth_spec g i q -> depth_spec g i q' -> q = q'.
Proof.
  intros W Hi [H1 ->|a H1 H2 ->|a H1 H2 H3 H4 ->] [K1 ->|b K1 K2 ->|b K1 K2 K3 K4 ->]; try congruence.
  - now rewrite (innermost_unique g _ i a b W Hi H2 K2).
  - destruct H2 as (A & B & _). specialize (K2 a A). congruence.
  - destruct K2 as (A & B & _). specialize (H2 b A). congruence.
  - assert (X : a = b); [|now subst].
    assert (T : forall x y, ancestor g x i -> ancestor g y i -> x = y \/ ancestor g x y \/ ancestor g y x).
    { clear. intros x y A. revert y. induction A as [i P|i p P A IH]; intros y B.
      - inversion B as [j Q|j q Q B']; subst; rewrite P in Q; injection Q as <-; auto.
      - inversion B as [j Q|j q Q B']; subst; rewrite P in Q; injection Q as <-; auto. }
    destruct (T a b H3 K3) as [|[A|A]]; [assumption| |]; exfalso; inversion A; congruence.
Qed.
Lemma depth_to_infinite_done fuel g i : well_formed g -> In i (g_nodes g) -> (length (g_nodes g) <= fuel)%nat ->
  n_infinite (g_heap g i) = true \/ parent_of g i <> None -> exists q, depth_to_infinite fuel g i = Done q.
Proof.
  intros W Hi F D. unfold depth_to_infinite. destruct (n_infinite (g_heap g i)); [now exists 0%Q|].
  destruct D as [D|D]; [discriminate|]. destruct (ancestors_done g W fuel i Hi) as (l & E); [pose proof (pos_lt _ _ Hi); lia|].
  rewrite E. cbn [obind]. apply ancestors_chain in E. destruct (find _ l); cbn [oget obind]; [eauto|].
  destruct (rev l) as [|a t] eqn:R; [|cbn; eauto]. exfalso. apply (f_equal (@rev nat)) in R. rewrite rev_involutive in R. cbn in R. subst l.
  inversion E; contradiction.
Qed.
Lemma mark_bares_done fuel w s : forall l st, (forall i, In i l -> open (l_type st i) -> exists q, depth_to_infinite fuel (l_g st) i = Done q) ->
  exists st', mark_bares fuel w s st l = Done st'.
Proof.
  induction l as [|i t IH]; intros st H; [now exists st|]. cbn [mark_bares]. unfold mark_bare.
  destruct (negb _) eqn:O.
  - cbn [obind]. apply IH. intros j Hj. apply H. now right.
  - apply negb_false_iff, open_dec in O. destruct (H i (or_introl eq_refl) O) as (q & ->). cbn [obind]. apply IH.
    intros j Hj OJ. cbn in *. destruct (Nat.eq_dec i j) as [->|NE]; [apply H; auto|]. rewrite put_other in OJ by exact NE. apply H; auto.
Qed.

(** ** Covalent bonds *)
Definition neighbours (w : world) (st : lab) (i : nat) : list Z := match l_coord st i with Some c => c | None => w_cnn w i end.
(** The value range in which both atoms are joined, compared with that in which one of them is present. *)
Definition joined (s : settings) (st : lab) (i : nat) (a0 a1 : Z) : Prop :=
  exists p q, innermost (l_g st) (fun d => In a0 (l_atoms st d) \/ In a1 (l_atoms st d)) i p /\
    innermost (l_g st) (fun d => In a0 (l_atoms st d) /\ In a1 (l_atoms st d)) i q /\
    ~ (n_max (g_heap (l_g st) p) == 0)%Q /\
    (s_molecule_ratio s <= n_max (g_heap (l_g st) q) / n_max (g_heap (l_g st) p))%Q.
Definition bond_type (w : world) (s : settings) (st : lab) (i : nat) (t : ftype) : Prop :=
  let '(tol, (a0, a1)) := w_bond w i in
  let big := (s_min_charge s < charge w (l_g st) i)%Q in
  let with_metal := nth_error (w_metal w) (Z.to_nat a0) = Some true \/ nth_error (w_metal w) (Z.to_nat a1) = Some true in
  let bond := tol = true /\ joined s st i a0 a1 /\ length (neighbours w st i) = 2%nat in
  (t = Covalent /\ bond /\ ~ with_metal /\ big) \/ (t = CovalentMetallic /\ bond /\ with_metal /\ big) \/
  (t = ShallowCovalentMetallic /\ bond /\ with_metal /\ ~ big) \/
  (t = Unknown /\ (~ bond \/ (~ with_metal /\ ~ big))).

Lemma has_in st i a : has st i a = true <-> In a (l_atoms st i).
Proof.
  unfold has. rewrite existsb_exists. split.
  - intros (x & H & E). apply Z.eqb_eq in E. now subst.
  - intro H. exists a. split; [exact H|apply Z.eqb_refl].
Qed.
Lemma first_max_spec st i l (f : nat -> bool) (P : nat -> Prop) : (forall x, f x = true <-> P x) -> chain (l_g st) i l ->
  match first_max st f l with
  | Some q => exists p, innermost (l_g st) P i p /\ q = n_max (g_heap (l_g st) p)
  | None => forall q, ancestor (l_g st) q i -> ~ P q
  end.
Proof.
  intros F C. destruct (find_innermost (l_g st) i l f P F C) as (F1 & F2). unfold first_max. destruct (find f l) as [p|]; cbn [option_map].
  - exists p. split; [now apply F1|reflexivity].
  - now apply F2.
Qed.

Lemma metal_done w a m : metal w a = Done m -> nth_error (w_metal w) (Z.to_nat a) = Some m.
Proof. unfold metal. destruct (nth_error _ _); cbn; congruence. Qed.

Definition kept (st st' : lab) : Prop := l_g st' = l_g st /\ l_atoms st' = l_atoms st /\ l_sphere st' = l_sphere st /\ l_beyond st' = l_beyond st.

Lemma mark_bond_spec fuel w s st i st' : well_formed (l_g st) -> In i (g_nodes (l_g st)) -> l_type st i = Unknown ->
  mark_bond fuel w s st i = Done st' ->
  kept st st' /\ (forall j, j <> i -> l_type st' j = l_type st j /\ l_coord st' j = l_coord st j) /\
  bond_type w s st i (l_type st' i).
Proof.
  intros W Hi T E. unfold mark_bond in E. unfold bond_type. destruct (w_bond w i) as [tol [a0 a1]] eqn:B.
  destruct tol; cbn [negb] in E.
  2:{ injection E as <-. split; [now repeat split|]. split; [auto|]. right; right; right. split; [exact T|]. left. intros (X & _). discriminate. }
  destruct (ancestors fuel (l_g st) i) as [anc| |] eqn:A; cbn [obind] in E; try discriminate.
  pose proof (ancestors_chain _ _ _ _ A) as C.
  assert (T1 : forall x, has st x a0 || has st x a1 = true <-> In a0 (l_atoms st x) \/ In a1 (l_atoms st x)).
  { intro x. now rewrite orb_true_iff, !has_in. }
  assert (T2 : forall x, has st x a0 && has st x a1 = true <-> In a0 (l_atoms st x) /\ In a1 (l_atoms st x)).
  { intro x. now rewrite andb_true_iff, !has_in. }
  pose proof (first_max_spec st i anc _ _ T1 C) as F1. pose proof (first_max_spec st i anc _ _ T2 C) as F2.
  destruct anc as [|p0 anc]; [discriminate|].
  destruct (first_max st _ _) as [one|]; [|discriminate].
  destruct (first_max st (fun p => has st p a0 && has st p a1) _) as [both|]; [|discriminate].
  destruct F1 as (p & I1 & ->). destruct F2 as (q & I2 & ->).
  destruct (Qeq_bool _ 0) eqn:Z0; [discriminate|]. apply Qeq_bool_neq in Z0.
  assert (JN : forall p' q', innermost (l_g st) (fun d => In a0 (l_atoms st d) \/ In a1 (l_atoms st d)) i p' ->
     innermost (l_g st) (fun d => In a0 (l_atoms st d) /\ In a1 (l_atoms st d)) i q' -> p' = p /\ q' = q).
  { intros p' q' H1 H2. split; eapply innermost_unique; eauto. }
  destruct (Qle_bool (s_molecule_ratio s) _) eqn:R; cbn [negb] in E.
  2:{ injection E as <-. split; [now repeat split|]. split; [auto|]. right; right; right. split; [exact T|]. left.
      intros (_ & (p' & q' & J1 & J2 & _ & J3) & _). destruct (JN p' q' J1 J2) as (-> & ->). apply Qle_bool_iff in J3. congruence. }
  apply Qle_bool_iff in R.
  assert (J : joined s st i a0 a1) by (exists p, q; auto).
  assert (CI : exists st1 c, coord_indices w st i = (st1, c) /\ kept st st1 /\ (forall j, l_type st1 j = l_type st j) /\
     (forall j, j <> i -> l_coord st1 j = l_coord st j) /\ c = neighbours w st i).
  { unfold coord_indices, neighbours. destruct (l_coord st i) as [c|] eqn:CC.
    - exists st, c. repeat split; auto.
    - rewrite T. cbn [atomic]. exists (set_coord st i (Some (w_cnn w i))), (w_cnn w i). split; [reflexivity|]. split; [now repeat split|].
      split; [auto|]. split; [|reflexivity]. intros j NE. cbn. rewrite put_other; [reflexivity|]. now intros ->. }
  destruct CI as (st1 & c & EC & K1 & T1' & C1 & ->). rewrite EC in E.
  destruct (Nat.eqb_spec (length (neighbours w st i)) 2) as [L|L]; cbn [negb] in E.
  2:{ injection E as <-. split; [exact K1|]. split; [intros j NE; split; auto|]. rewrite T1', T. right; right; right. split; [reflexivity|]. left. tauto. }
  destruct (metal w a0) as [m0| |] eqn:M0; cbn [obind] in E; try discriminate.
  destruct (metal w a1) as [m1| |] eqn:M1; cbn [obind] in E; try discriminate.
  apply metal_done in M0, M1. destruct K1 as (K1 & K2 & K3 & K4). rewrite K1 in E.
  assert (BG : forall b, Qltb (s_min_charge s) (charge w (l_g st) i) = b -> if b then (s_min_charge s < charge w (l_g st) i)%Q else ~ (s_min_charge s < charge w (l_g st) i)%Q).
  { intros [|] H; [now apply Qltb_lt in H|]. intro X. apply Qltb_lt in X. congruence. }
  destruct (Qltb (s_min_charge s) (charge w (l_g st) i)) eqn:BIG; specialize (BG _ eq_refl); cbn beta iota in BG.
  - destruct (m0 || m1)%bool eqn:M.
    + injection E as <-. split; [now repeat split|]. split; [intros j NE; cbn; rewrite !put_other by congruence; auto|].
      cbn [set_coord set_type l_type]. rewrite put_same. right; left. split; [reflexivity|]. split; [auto|]. split; [|exact BG].
      rewrite M0, M1. destruct m0, m1; try discriminate M; auto.
    + injection E as <-. split; [now repeat split|]. split; [intros j NE; cbn; rewrite !put_other by congruence; auto|].
      cbn [set_coord set_type l_type]. rewrite put_same. left. split; [reflexivity|]. split; [auto|]. split; [|exact BG].
      rewrite M0, M1. destruct m0, m1; try discriminate M. intros [X|X]; discriminate X.
  - destruct (m0 || m1)%bool eqn:M.
    + injection E as <-. split; [now repeat split|]. split; [intros j NE; cbn; rewrite !put_other by congruence; auto|].
      cbn [set_coord set_type l_type]. rewrite put_same. right; right; left. split; [reflexivity|]. split; [auto|]. split; [|exact BG].
      rewrite M0, M1. destruct m0, m1; try discriminate M; auto.
    + injection E as <-. split; [now repeat split|]. split; [intros j NE; auto|].
      rewrite T1', T. right; right; right. split; [reflexivity|]. right. split; [|exact BG].
      rewrite M0, M1. destruct m0, m1; try discriminate M. intros [X|X]; discriminate X.
Qed.

Lemma bond_type_ext w s st st' i t : l_g st' = l_g st -> l_atoms st' = l_atoms st -> l_coord st' i = l_coord st i ->
  bond_type w s st' i t <-> bond_type w s st i t.
Proof. intros G A C. unfold bond_type, joined, neighbours. rewrite G, A, C. reflexivity. Qed.

Lemma mark_bonds_spec fuel w s : forall l st st', well_formed (l_g st) -> NoDup l ->
  (forall i, In i l -> In i (g_nodes (l_g st)) /\ l_type st i = Unknown) -> mark_bonds fuel w s st l = Done st' ->
  kept st st' /\ (forall j, ~ In j l -> l_type st' j = l_type st j /\ l_coord st' j = l_coord st j) /\
  (forall i, In i l -> bond_type w s st i (l_type st' i)).
Proof.
  induction l as [|i t IH]; intros st st' W N H E; cbn [mark_bonds] in E.
  { injection E as <-. split; [now repeat split|]. split; [auto|]. intros ? []. }
  destruct (mark_bond fuel w s st i) as [st1| |] eqn:E1; cbn [obind] in E; try discriminate.
  inversion N as [|x y Ni N']; subst. destruct (H i (or_introl eq_refl)) as (Hi & Ti).
  destruct (mark_bond_spec fuel w s st i st1 W Hi Ti E1) as ((K1 & K2 & K3 & K4) & O & B).
  assert (W1 : well_formed (l_g st1)) by now rewrite K1.
  destruct (IH st1 st' W1 N') as ((L1 & L2 & L3 & L4) & O' & B').
  { intros j Hj. rewrite K1. destruct (H j (or_intror Hj)) as (X & Y). split; [exact X|]. destruct (O j) as (-> & _); [intros ->; contradiction|exact Y]. }
  { exact E. }
  split; [split; [|split; [|split]]; congruence|]. split.
  - intros j Hj. destruct (O' j) as (A1 & A2); [intro; apply Hj; now right|]. destruct (O j) as (A3 & A4); [intros ->; apply Hj; now left|]. split; congruence.
  - intros j [<-|Hj].
    + destruct (O' i Ni) as (-> & _). exact B.
    + assert (NE : j <> i) by (intros ->; contradiction). apply (bond_type_ext w s st st1 j); auto. now apply O.
Qed.

(** A bond stores its two atoms. *)
Lemma mark_bond_coord fuel w s st i st' : l_type st i = Unknown -> mark_bond fuel w s st i = Done st' -> l_type st' i <> Unknown ->
  l_coord st' i = Some [fst (snd (w_bond w i)); snd (snd (w_bond w i))].
Proof.
  intros T E N. unfold mark_bond in E. destruct (w_bond w i) as [tol [a0 a1]]. cbn [fst snd].
  assert (T1 : l_type (fst (coord_indices w st i)) = l_type st) by (unfold coord_indices; now destruct (l_coord st i)).
  destruct tol; cbn [negb] in E; [|injection E as <-; contradiction].
  destruct (ancestors fuel (l_g st) i) as [[|p l]| |]; cbn [obind] in E; try discriminate.
  destruct (first_max st _ _); [|discriminate]. destruct (first_max st _ _); [|discriminate].
  destruct (Qeq_bool _ 0); [discriminate|]. destruct (negb _); [injection E as <-; contradiction|].
  destruct (coord_indices w st i) as [st1 c]. cbn [fst] in T1. destruct (negb _); [injection E as <-; congruence|].
  destruct (metal w a0) as [m0| |]; cbn [obind] in E; try discriminate. destruct (metal w a1) as [m1| |]; cbn [obind] in E; try discriminate.
  destruct (m0 || m1)%bool.
  - injection E as <-. cbn. now rewrite put_same.
  - destruct (Qltb _ _); injection E as <-; [cbn; now rewrite put_same|congruence].
Qed.
Lemma mark_bonds_coord fuel w s : forall l st st', well_formed (l_g st) -> NoDup l ->
  (forall i, In i l -> In i (g_nodes (l_g st)) /\ l_type st i = Unknown) -> mark_bonds fuel w s st l = Done st' ->
  forall i, In i l -> l_type st' i <> Unknown -> l_coord st' i = Some [fst (snd (w_bond w i)); snd (snd (w_bond w i))].
Proof.
  induction l as [|i t IH]; intros st st' W N H E; cbn [mark_bonds] in E; [intros ? []|].
  destruct (mark_bond fuel w s st i) as [st1| |] eqn:E1; cbn [obind] in E; try discriminate.
  inversion N as [|x y Ni N']; subst. destruct (H i (or_introl eq_refl)) as (Hi & Ti).
  destruct (mark_bond_spec fuel w s st i st1 W Hi Ti E1) as ((K1 & _) & O & _).
  assert (W1 : well_formed (l_g st1)) by now rewrite K1.
  assert (H1 : forall j, In j t -> In j (g_nodes (l_g st1)) /\ l_type st1 j = Unknown).
  { intros j Hj. rewrite K1. destruct (H j (or_intror Hj)) as (X & Y). split; [exact X|]. destruct (O j) as (-> & _); [intros ->; contradiction|exact Y]. }
  destruct (mark_bonds_spec fuel w s t st1 st' W1 N' H1 E) as (_ & O' & _).
  intros j [<-|Hj] NU; [|now apply (IH st1 st')]. destruct (O' i Ni) as (X1 & X2). rewrite X1 in NU. rewrite X2. now apply (mark_bond_coord fuel w s st i st1).
Qed.

Lemma mark_bond_done fuel w s st i : well_formed (l_g st) -> In i (g_nodes (l_g st)) -> (length (g_nodes (l_g st)) <= fuel)%nat ->
  (let '(tol, (a0, a1)) := w_bond w i in tol = true ->
     (exists d, ancestor (l_g st) d i /\ In a0 (l_atoms st d) /\ In a1 (l_atoms st d)) /\
     (exists m0, nth_error (w_metal w) (Z.to_nat a0) = Some m0) /\ (exists m1, nth_error (w_metal w) (Z.to_nat a1) = Some m1)) ->
  (forall d, ancestor (l_g st) d i -> ~ (n_max (g_heap (l_g st) d) == 0)%Q) ->
  exists st', mark_bond fuel w s st i = Done st'.
Proof.
  intros W Hi F B NZ. unfold mark_bond. destruct (w_bond w i) as [tol [a0 a1]]. destruct tol; cbn [negb]; [|eauto].
  destruct (B eq_refl) as ((d & A & D0 & D1) & (m0 & M0) & (m1 & M1)).
  destruct (ancestors_done _ W fuel i Hi) as (l & E); [pose proof (pos_lt _ _ Hi); lia|]. rewrite E. cbn [obind].
  pose proof (ancestors_chain _ _ _ _ E) as C.
  destruct l as [|p0 l]; [exfalso; apply (chain_in _ _ _ C) in A; destruct A|].
  assert (T1 : forall x, has st x a0 || has st x a1 = true <-> In a0 (l_atoms st x) \/ In a1 (l_atoms st x)).
  { intro x. now rewrite orb_true_iff, !has_in. }
  assert (T2 : forall x, has st x a0 && has st x a1 = true <-> In a0 (l_atoms st x) /\ In a1 (l_atoms st x)).
  { intro x. now rewrite andb_true_iff, !has_in. }
  pose proof (first_max_spec st i _ _ _ T1 C) as F1. pose proof (first_max_spec st i _ _ _ T2 C) as F2.
  destruct (first_max st _ _) as [one|]; [|exfalso; apply (F1 d A); auto].
  destruct (first_max st (fun p => has st p a0 && has st p a1) _) as [both|]; [|exfalso; apply (F2 d A); auto].
  destruct F1 as (p & (I1 & _) & ->).
  destruct (Qeq_bool _ 0) eqn:Z0; [exfalso; apply Qeq_bool_iff in Z0; now apply (NZ p)|].
  destruct (negb _); [eauto|]. destruct (coord_indices w st i) as [st1 c]. destruct (negb _); [eauto|].
  unfold metal. rewrite M0, M1. cbn [oget obind]. destruct (m0 || m1)%bool; [eauto|]. destruct (Qltb _ _); eauto.
Qed.
