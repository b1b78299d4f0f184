(** From the neighbours of the atoms to the dividing planes. *)
From Coq Require Import QArith Lqa Sorted.
From Verif Require Import Base RootsModel RootsProofs LabelsProofs UnionModel ChargeModel CoordModel CoordProofs CoordMerge NearModel RefineModel PlaneModel PlaneWrap PlaneProps EnvModel RadModel RadSpec RadProofs RadProps BondModel BondProps VorModel VorProofs.
Local Open Scope Z_scope.

Lemma qmax_fold l : forall a, let m := fold_left qmax l a in (a <= m)%Q /\ (forall x, In x l -> (x <= m)%Q) /\ (m = a \/ In m l).
Proof.
  induction l as [|x l IH]; intros a; cbn [fold_left]; [split; [lra|split; [intros x []|now left]]|]. destruct (IH (qmax a x)) as (A & B & C). cbv zeta in *. set (m := fold_left _ _ _) in *. clearbody m. clear IH. unfold qmax in A, C. destruct (Qltb a x) eqn:E.
  - apply Qltb_lt in E. split; [lra|]. split; [intros y [<-|H]; [lra|auto]|]. right. destruct C as [->|C]; [now left|now right].
  - apply Qltb_ge in E. split; [lra|]. split; [intros y [<-|H]; [lra|auto]|]. destruct C as [->|C]; [now left|right; now right].
Qed.
Lemma nonzero x : negb (Qeq_bool x 0) && negb (Qltb x (1 # 1000000000000)) = true <-> (tiny <= x)%Q.
Proof.
  rewrite andb_true_iff, !negb_true_iff, Qltb_ge. split; [intros [_ H]; exact H|]. intros H. split; [|exact H]. destruct (Qeq_bool x 0) eqn:E; [|reflexivity]. apply Qeq_bool_iff in E. unfold tiny in H. lra.
Qed.

Lemma done_inj {A} (x y : A) : Done x = Done y -> x = y.
Proof. now intros [= E]. Qed.

(** ** Neighbours *)
Definition away (fracs : list vec) (s : nat) (z : nn) : vec := vsub (position fracs z) (site_coord fracs s).
Lemma expand_spec root fracs nlist s first l : pos_root root -> (forall z, In z first -> (0 < norm2 (away fracs s z))%Q) -> expand root fracs nlist s first = Done l ->
  exists reach, (exists z, In z first /\ (reach == 3 * n_dist z)%Q) /\ (forall z, In z first -> (3 * n_dist z <= reach)%Q) /\
    forall y, In y l <-> In y (nlist s reach) /\ (tiny <= n_dist y)%Q /\
      forall z, In z first -> (vdot (away fracs s z) (away fracs s y) <= (3 # 2) * norm2 (away fracs s z) - tiny * root (norm2 (away fracs s z)))%Q.
Proof.
  intros PR NZ. unfold expand. destruct first as [|x t]; [discriminate|]. intros EL. apply done_inj in EL. subst l. destruct (qmax_fold (map n_dist t) (n_dist x)) as (A & B & C). cbv zeta in *. set (m := fold_left _ _ _) in *. clearbody m. exists (m * (3 # 2) * 2)%Q. split.
  { destruct C as [->|C]; [exists x; split; [now left|ring]|]. apply in_map_iff in C as (z & <- & H). exists z. split; [now right|ring]. }
  split; [intros z [<-|H]; [lra|]; specialize (B (n_dist z) (in_map _ _ _ H)); lra|]. intros y. rewrite filter_In, <- andb_assoc, andb_true_iff, nonzero, forallb_forall.
  assert (E : (forall e, In e (map (fun y0 => plane_equation root (site_coord fracs s) (position fracs y0) (3 # 2)) (x :: t)) -> Qle_bool (plane_value e (position fracs y)) (- (1 # 1000000000000)) = true) <->
              (forall z, In z (x :: t) -> (vdot (away fracs s z) (away fracs s y) <= (3 # 2) * norm2 (away fracs s z) - tiny * root (norm2 (away fracs s z)))%Q)).
  { assert (Q1 : forall z, In z (x :: t) -> (Qle_bool (plane_value (plane_equation root (site_coord fracs s) (position fracs z) (3 # 2)) (position fracs y)) (- (1 # 1000000000000)) = true <-> (vdot (away fracs s z) (away fracs s y) <= (3 # 2) * norm2 (away fracs s z) - tiny * root (norm2 (away fracs s z)))%Q)).
    { intros z Z1. rewrite Qle_bool_iff, below_iff; [|apply (NZ z Z1)|exact PR]. unfold away, tiny. set (r := root _). clearbody r. set (a := vdot _ _). set (b := norm2 _). clearbody a b. split; intro; lra. }
    split; [intros H z Z1; apply Q1; [exact Z1|]; apply H, in_map_iff; eauto|]. intros H e He. apply in_map_iff in He as (z & <- & Z1). apply Q1; auto. }
  rewrite E. tauto.
Qed.
Lemma neigh_info_in argsort l x : sorts argsort -> (In x (neigh_info argsort l) <-> In x l /\ ~ (n_dist x == 0)%Q).
Proof.
  intros S. unfold neigh_info. rewrite filter_In, negb_true_iff. assert (P : Permutation (map (fun i => nth i l nn0) (argsort (map n_dist l))) l).
  { destruct (S (map n_dist l)) as [P _]. rewrite map_length in P. apply (Permutation_map (fun i => nth i l nn0)) in P. etransitivity; [exact P|]. rewrite nth_seq_id. reflexivity. }
  assert (E : Qeq_bool (n_dist x) 0 = false <-> ~ (n_dist x == 0)%Q) by (rewrite <- Qeq_bool_iff; destruct (Qeq_bool _ _); split; congruence).
  rewrite E. split; intros [H1 H2]; (split; [|exact H2]); [exact (Permutation_in _ P H1)|exact (Permutation_in _ (Permutation_sym P) H1)].
Qed.
(** What is asked of the neighbours of a site. *)
Definition neighbours_ok (root : Q -> Q) (fracs : list vec) (nlist : nat -> Q -> list nn) (s : nat) (l : list nn) : Prop :=
  (exists z, In z l /\ ~ (n_dist z == 0)%Q) /\
  forall z, In z l -> ~ (n_dist z == 0)%Q ->
    (tiny <= n_dist z)%Q /\ (0 < norm2 (away fracs s z))%Q /\ (2 * tiny * root (norm2 (away fracs s z)) <= norm2 (away fracs s z))%Q /\
    forall r, (n_dist z <= r)%Q -> In z (nlist s r).
Lemma least_norm {A} (f : A -> Q) (l : list A) : l <> [] -> exists z, In z l /\ forall y, In y l -> (f z <= f y)%Q.
Proof.
  induction l as [|x l IH]; [congruence|]. intros _. destruct l as [|w l]; [exists x; split; [now left|intros y [<-|[]]; lra]|]. destruct IH as (z & Z1 & Z2); [discriminate|].
  destruct (Qlt_le_dec (f x) (f z)) as [L|L].
  - exists x. split; [now left|]. intros y [<-|H]; [lra|]. specialize (Z2 y H). lra.
  - exists z. split; [now right|]. intros y [<-|H]; [exact L|auto].
Qed.
Lemma expand_some root argsort fracs nlist s found : sorts argsort -> pos_root root -> neighbours_ok root fracs nlist s found ->
  exists l, expand root fracs nlist s (neigh_info argsort found) = Done l /\ exists z, In z l /\ In z found /\ forall y, In y found -> ~ (n_dist y == 0)%Q -> (norm2 (away fracs s z) <= norm2 (away fracs s y))%Q.
Proof.
  intros SO PR ((z0 & Z1 & Z2) & NB). assert (NI : forall y, In y (neigh_info argsort found) <-> In y found /\ ~ (n_dist y == 0)%Q) by (intro y; now apply neigh_info_in).
  set (first := neigh_info argsort found) in *. clearbody first. assert (NE : first <> []) by (intros ->; apply (NI z0); auto). destruct (least_norm (fun y => norm2 (away fracs s y)) first NE) as (z & H1 & H2).
  assert (EX : exists l, expand root fracs nlist s first = Done l) by (unfold expand; destruct first; [congruence|eauto]). destruct EX as (l & EX). exists l. split; [exact EX|]. exists z. pose proof H1 as H3. rewrite NI in H3. destruct H3 as [H3 H4].
  destruct (expand_spec root fracs nlist s first l PR) with (2 := EX) as (reach & _ & R2 & R3); [intros y Y; apply NI in Y as [Y1 Y2]; now apply (NB y)|].
  destruct (NB z H3 H4) as (N1 & N2 & N3 & N4). split; [|split; [exact H3|intros y Y1 Y2; apply H2, NI; auto]]. apply R3. split; [apply N4; specialize (R2 z H1); unfold tiny in N1; lra|]. split; [exact N1|].
  intros y Y. specialize (H2 y Y). cbv beta in H2. apply NI in Y as [Y1 Y2]. destruct (NB y Y1 Y2) as (_ & M2 & M3 & _). pose proof (vdot_half (away fracs s y) (away fracs s z)) as V. set (d := vdot _ _) in *. set (a := norm2 (away fracs s y)) in *. set (b := norm2 (away fracs s z)) in *. set (r := root a) in *. clearbody d a b r. unfold tiny in *. lra.
Qed.
(** All groups. *)
Lemma considered_spec root argsort fracs found nlist : forall sites bs, considered root argsort fracs found nlist sites = Done bs ->
  exists G, map fst G = sites /\ bs = cat G /\ forall s l, In (s, l) G -> expand root fracs nlist s (neigh_info argsort (found s)) = Done l.
Proof.
  induction sites as [|s t IH]; intros bs; cbn [considered]; [intros [= <-]; exists []; repeat split; intros ? ? []|].
  destruct (expand root fracs nlist s (neigh_info argsort (found s))) as [l| |] eqn:E; cbn [obind]; try discriminate. destruct (considered root argsort fracs found nlist t) as [r| |] eqn:E2; cbn [obind]; try discriminate. intros [= <-].
  destruct (IH r eq_refl) as (G & G1 & G2 & G3). exists ((s, l) :: G). split; [cbn; now f_equal|]. split; [cbn [cat flat_map]; fold (cat G); now rewrite G2|]. intros s' l' [H|H]; [injection H as <- <-; exact E|auto].
Qed.
Lemma considered_done root argsort fracs found nlist sites : (forall s, In s sites -> exists l, expand root fracs nlist s (neigh_info argsort (found s)) = Done l) -> exists bs, considered root argsort fracs found nlist sites = Done bs.
Proof.
  induction sites as [|s t IH]; intros H; [exists []; reflexivity|]. destruct (H s (or_introl eq_refl)) as (l & E). destruct IH as (r & E2); [intros; apply H; now right|]. cbn [considered]. rewrite E. cbn [obind]. rewrite E2. cbn [obind]. eauto.
Qed.
Lemma unique_nodup equiv : NoDup (unique_atoms equiv).
Proof.
  unfold unique_atoms. pose proof (np_unique_NoDup (map Z.of_nat equiv)) as N. assert (P : forall x, In x (np_unique (map Z.of_nat equiv)) -> 0 <= x) by (intros x H; apply np_unique_in, in_map_iff in H as (n & <- & _); lia).
  induction (np_unique (map Z.of_nat equiv)) as [|x l IH]; [constructor|]. inversion N; subst. cbn. constructor; [|apply IH; [assumption|intros; apply P; now right]]. intros H. apply in_map_iff in H as (y & E & H). assert (y = x) by (pose proof (P y (or_intror H)); pose proof (P x (or_introl eq_refl)); lia). subst. contradiction.
Qed.
Lemma unique_in equiv x : In x (unique_atoms equiv) <-> In x equiv.
Proof.
  unfold unique_atoms. rewrite in_map_iff. split.
  - intros (z & <- & H). apply np_unique_in, in_map_iff in H as (n & <- & H). now rewrite Nat2Z.id.
  - intros H. exists (Z.of_nat x). rewrite Nat2Z.id. split; [reflexivity|]. apply np_unique_in. now apply in_map.
Qed.

Lemma in_selected {A} (l : list A) fl x : In x (selected l fl) <-> exists i, nth_error l i = Some x /\ nth_error fl i = Some true.
Proof.
  unfold selected. rewrite in_map_iff. split.
  - intros ([y b] & <- & H). apply filter_In in H as [H E]. cbn in E. subst b. apply in_combine_nth in H. exact H.
  - intros H. apply in_combine_nth in H. exists (x, true). split; [reflexivity|]. apply filter_In. auto.
Qed.
Lemma nth_combine {A B} (l : list A) (m : list B) i a b : nth_error (combine l m) i = Some (a, b) <-> nth_error l i = Some a /\ nth_error m i = Some b.
Proof.
  revert m i. induction l as [|x l IH]; intros m i; [split; [destruct i; discriminate|intros [E _]; destruct i; discriminate]|]. destruct m as [|y m]; [split; [destruct i; discriminate|intros [_ E]; destruct i; discriminate]|].
  destruct i as [|i]; cbn; [split; [intros [= <- <-]; auto|intros [E1 E2]; congruence]|apply IH].
Qed.
Lemma map_fst_combine {A B} (l : list A) (m : list B) : length l = length m -> map fst (combine l m) = l.
Proof. revert m. induction l as [|x l IH]; intros [|y m] E; try discriminate; [reflexivity|]. cbn. f_equal. apply IH. cbn in E. lia. Qed.
Lemma map_snd_combine {A B} (l : list A) (m : list B) : length l = length m -> map snd (combine l m) = m.
Proof. revert m. induction l as [|x l IH]; intros [|y m] E; try discriminate; [reflexivity|]. cbn. f_equal. apply IH. cbn in E. lia. Qed.
