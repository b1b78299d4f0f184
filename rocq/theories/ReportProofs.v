(** Proofs about ReportModel. *)
From Coq Require Import QArith Lqa String Sorted Permutation.
From Verif Require Import Base RootsModel UnionModel GridModel NeighModel ChargeModel LabelsModel NearModel SurfaceModel MarkModel CoordMerge ReportModel.
Local Open Scope nat_scope.

(** ** Structures *)
Definition is_bare (n : rnode) : Prop := r_type n = Electride \/ r_type n = BareElectron.

Lemma type_in_iff t l : type_in t l = true <-> In t l.
Proof.
  unfold type_in. rewrite existsb_exists. split.
  - intros (x & H & E). destruct t, x; (discriminate || exact H).
  - intro H. exists t. split; [exact H|now destruct t].
Qed.
Lemma type_bare n : type_in (r_type n) bare_types = true <-> is_bare n.
Proof. rewrite type_in_iff. unfold is_bare. cbn. intuition congruence. Qed.
Lemma type_not_bare n : type_in (r_type n) bare_types = false <-> ~ is_bare n.
Proof. rewrite <- type_bare. destruct (type_in (r_type n) bare_types); intuition congruence. Qed.

Lemma fold_append {A B} (f : A -> B) : forall l s, fold_left (fun s n => s ++ [f n]) l s = s ++ map f l.
Proof. induction l as [|a l IH]; intro s; cbn; [now rewrite app_nil_r|]. now rewrite IH, <- app_assoc. Qed.

Lemma sorted_seq_filter (f : nat -> bool) n : forall k, StronglySorted lt (filter f (seq k n)).
Proof.
  induction n as [|n IH]; intro k; cbn [seq filter]; [constructor|].
  destruct (f k); [constructor|]; [apply IH| |apply IH].
  apply Forall_forall. intros x H. apply filter_In in H as [H _]. apply in_seq in H. lia.
Qed.

Lemma split_bare_eq nodes : forall l b o, split_bare nodes l b o =
  (b ++ filter (fun i => type_in (r_type (nth i nodes no_node)) bare_types) l) ++
  (o ++ filter (fun i => negb (type_in (r_type (nth i nodes no_node)) bare_types)) l).
Proof.
  induction l as [|i l IH]; intros b o; cbn [split_bare filter]; [now rewrite !app_nil_r|].
  destruct (type_in (r_type (nth i nodes no_node)) bare_types); cbn [negb]; rewrite IH; [|]; now rewrite <- !app_assoc.
Qed.

Lemma in_by_type nodes types i : In i (indices_by_type nodes types) <-> exists n, nth_error nodes i = Some n /\ In (r_type n) types.
Proof.
  unfold indices_by_type. rewrite filter_In, in_seq, type_in_iff. split.
  - intros [H T]. exists (nth i nodes no_node). split; [apply nth_error_nth'; lia|exact T].
  - intros (n & E & T). rewrite (nth_error_nth _ _ _ E). split; [|exact T]. assert (i < List.length nodes) by (apply nth_error_Some; congruence). lia.
Qed.

Lemma sorted_nodup l : StronglySorted lt l -> NoDup l.
Proof.
  induction 1 as [|a l S IH F]; constructor; [|exact IH]. intro H. rewrite Forall_forall in F. specialize (F a H). lia.
Qed.
Lemma filter_sorted f l : StronglySorted lt l -> StronglySorted lt (filter f l).
Proof.
  induction 1 as [|a l S IH F]; cbn; [constructor|]. destruct (f a); [|exact IH]. constructor; [exact IH|].
  apply Forall_forall. intros x H. apply filter_In in H as [H _]. rewrite Forall_forall in F. auto.
Qed.

Lemma nodup_app {A} : forall l m : list A, NoDup l -> NoDup m -> (forall x, In x l -> ~ In x m) -> NoDup (l ++ m).
Proof.
  induction l as [|a l IH]; intros m L M D; [exact M|]. inversion L; subst. cbn. constructor.
  - rewrite in_app_iff. intros [H|H]; [contradiction|]. apply (D a); [now left|exact H].
  - apply IH; auto. intros x H. apply D. now right.
Qed.

(** ** Lists of features *)
Lemma nth_upd {A} (d x : A) : forall l i j, nth j (upd l i x) d = if (Nat.eqb i j && (i <? List.length l))%bool then x else nth j l d.
Proof.
  induction l as [|a l IH]; intros i j.
  - replace (i <? List.length (@nil A)) with false by (symmetry; apply Nat.ltb_ge; cbn; lia). rewrite Bool.andb_false_r. now destruct i.
  - destruct i, j; cbn [upd nth Nat.eqb List.length]; try reflexivity. rewrite IH. destruct (Nat.eqb i j); cbn [andb]; [|reflexivity]. reflexivity.
Qed.
Lemma upd_len {A} (x : A) : forall l i, List.length (upd l i x) = List.length l.
Proof. induction l as [|a l IH]; intros [|i]; cbn; auto. Qed.

Lemma append_at_done l i x l' : append_at l i x = Done l' ->
  i < List.length l /\ List.length l' = List.length l /\ forall a, nth a l' [] = if Nat.eqb a i then nth a l [] ++ [x] else nth a l [].
Proof.
  unfold append_at. destruct (Nat.ltb_spec i (List.length l)) as [H|H]; [|discriminate]. intros [= <-]. split; [exact H|]. split; [apply upd_len|].
  intro a. rewrite nth_upd. replace (i <? List.length l) with true by (symmetry; now apply Nat.ltb_lt). rewrite Bool.andb_true_r, Nat.eqb_sym.
  destruct (Nat.eqb_spec a i) as [->|]; reflexivity.
Qed.
Lemma append_at_ok l i x : i < List.length l -> exists l', append_at l i x = Done l'.
Proof. intro H. unfold append_at. rewrite (proj2 (Nat.ltb_lt _ _) H). eauto. Qed.

(** One node with a single neighbour. *)
Definition single (n : rnode) : bool := (Nat.eqb (List.length (r_coord n)) 1 && negb (type_in (r_type n) bare_types))%bool.
Definition home (a : nat) (n : rnode) : bool := (single n && match r_coord_e n with b :: _ => Nat.eqb b a | [] => false end)%bool.
Definition numbered (k : nat) (l : list rnode) : list (nat * rnode) := combine (seq k (List.length l)) l.

Lemma add_atoms_spec : forall nodes l i l', add_atom_features l i nodes = Done l' ->
  List.length l' = List.length l /\
  (forall n, In n nodes -> single n = true -> exists a t, r_coord_e n = a :: t /\ a < List.length l) /\
  forall a, nth a l' [] = nth a l [] ++ map fst (filter (fun p => home a (snd p)) (numbered i nodes)).
Proof.
  induction nodes as [|n nodes IH]; intros l i l'.
  - intros [= <-]. split; [reflexivity|]. split; [intros n []|]. intro a. cbn. now rewrite app_nil_r.
  - cbn [add_atom_features]. fold (single n). destruct (single n) eqn:S.
    + destruct (r_coord_e n) as [|b t] eqn:E; [discriminate|].
      destruct (append_at l b i) as [l1| |] eqn:A; cbn [obind]; try discriminate. intro H.
      destruct (append_at_done _ _ _ _ A) as (B & L1 & N1). destruct (IH _ _ _ H) as (L2 & S2 & N2).
      split; [congruence|]. split.
      { intros m [<-|M] SM; [exists b, t; auto|]. destruct (S2 m M SM) as (a & t' & X & Y). exists a, t'. split; [exact X|]. lia. }
      intro a. rewrite N2, N1. cbn [numbered List.length seq combine filter snd]. unfold home at 2. rewrite S, E. cbn [andb].
      rewrite (Nat.eqb_sym b a). destruct (Nat.eqb a b); [|reflexivity]. cbn [map fst]. now rewrite <- app_assoc.
    + intro H. destruct (IH _ _ _ H) as (L2 & S2 & N2). split; [exact L2|]. split.
      { intros m [<-|M] SM; [congruence|]. now apply S2. }
      intro a. rewrite N2. cbn [numbered List.length seq combine filter snd]. unfold home at 2. rewrite S. reflexivity.
Qed.
Lemma add_atoms_ok : forall nodes l i,
  (forall n, In n nodes -> single n = true -> exists a t, r_coord_e n = a :: t /\ a < List.length l) ->
  exists l', add_atom_features l i nodes = Done l'.
Proof.
  induction nodes as [|n nodes IH]; intros l i H; [cbn; eauto|]. cbn [add_atom_features]. fold (single n). destruct (single n) eqn:S.
  - destruct (H n (or_introl eq_refl) S) as (a & t & -> & A). destruct (append_at_ok l a i A) as (l1 & E1). rewrite E1. cbn [obind].
    apply IH. intros m M SM. destruct (H m (or_intror M) SM) as (b & t' & X & Y). exists b, t'. split; [exact X|].
    apply append_at_done in E1 as (_ & -> & _). exact Y.
  - apply IH. intros m M. apply H. now right.
Qed.

Lemma add_electrides_spec natoms : forall nodes l num i l', add_electride_features natoms l num i nodes = Done l' ->
  List.length l' = List.length l /\
  forall a, nth a l' [] = nth a l [] ++
    (if natoms + num <=? a then match nth_error (filter (fun p => type_in (r_type (snd p)) bare_types) (numbered i nodes)) (a - (natoms + num)) with
      | Some p => [fst p] | None => [] end else []).
Proof.
  induction nodes as [|n nodes IH]; intros l num i l'.
  - intros [= <-]. split; [reflexivity|]. intro a. cbn. destruct (natoms + num <=? a); [destruct (a - (natoms + num))|]; now rewrite app_nil_r.
  - cbn [add_electride_features numbered List.length seq combine filter snd]. destruct (type_in (r_type n) bare_types) eqn:B.
    + destruct (append_at l (natoms + num) i) as [l1| |] eqn:A; cbn [obind]; try discriminate. intro H.
      destruct (append_at_done _ _ _ _ A) as (_ & L1 & N1). destruct (IH _ _ _ _ H) as (L2 & N2). split; [congruence|].
      intro a. rewrite N2, N1. destruct (Nat.eqb_spec a (natoms + num)) as [->|NE].
      * rewrite Nat.leb_refl, Nat.sub_diag. replace (natoms + S num <=? natoms + num) with false by (symmetry; apply Nat.leb_gt; lia).
        cbn [nth_error fst]. now rewrite app_nil_r.
      * destruct (Nat.leb_spec (natoms + num) a), (Nat.leb_spec (natoms + S num) a); try lia; [|reflexivity].
        replace (a - (natoms + num)) with (S (a - (natoms + S num))) by lia. reflexivity.
    + intro H. destruct (IH _ _ _ _ H) as (L2 & N2). split; [exact L2|]. exact N2.
Qed.
Lemma add_electrides_ok natoms : forall nodes l num i,
  natoms + num + List.length (filter (fun n => type_in (r_type n) bare_types) nodes) <= List.length l ->
  exists l', add_electride_features natoms l num i nodes = Done l'.
Proof.
  induction nodes as [|n nodes IH]; intros l num i H; [cbn; eauto|]. cbn [add_electride_features filter] in *.
  destruct (type_in (r_type n) bare_types) eqn:B; [|now apply IH]. cbn [List.length] in H.
  destruct (append_at_ok l (natoms + num) i) as (l1 & E1); [lia|]. rewrite E1. cbn [obind]. apply IH.
  apply append_at_done in E1 as (_ & -> & _). lia.
Qed.

Lemma electride_structure_eq atoms nodes : electride_structure atoms nodes = atoms ++ map site_of (get_feature_nodes nodes bare_types).
Proof. apply (fold_append site_of). Qed.
Lemma electride_structure_len atoms nodes : List.length (electride_structure atoms nodes) =
  List.length atoms + List.length (filter (fun n => type_in (r_type n) bare_types) nodes).
Proof. rewrite electride_structure_eq, app_length, map_length. reflexivity. Qed.

(** The list of one site. *)
Definition site_list (natoms : nat) (nodes : list rnode) (a : nat) : list nat :=
  map fst (filter (fun p => home a (snd p)) (numbered 0 nodes)) ++
  (if natoms <=? a then match nth_error (filter (fun p => type_in (r_type (snd p)) bare_types) (numbered 0 nodes)) (a - natoms) with
      | Some p => [fst p] | None => [] end else []).
Lemma nth_repeat_nil {A} n a : nth a (repeat (@nil A) n) [] = [].
Proof. revert a. induction n as [|n IH]; intros [|a]; cbn; auto. Qed.
Lemma indices_spec atoms nodes l : atom_feature_indices_e atoms nodes = Done l ->
  List.length l = List.length (electride_structure atoms nodes) /\
  (forall n, In n nodes -> single n = true -> exists a t, r_coord_e n = a :: t /\ a < List.length (electride_structure atoms nodes)) /\
  forall a, nth a l [] = site_list (List.length atoms) nodes a.
Proof.
  unfold atom_feature_indices_e. destruct (add_atom_features _ 0 nodes) as [l1| |] eqn:E1; cbn [obind]; try discriminate. intro E2.
  destruct (add_atoms_spec _ _ _ _ E1) as (L1 & S1 & N1). destruct (add_electrides_spec _ _ _ _ _ _ E2) as (L2 & N2).
  rewrite repeat_length in *. split; [congruence|]. split; [exact S1|]. intro a. rewrite N2, N1, nth_repeat_nil, Nat.add_0_r. reflexivity.
Qed.
Lemma indices_ok atoms nodes :
  (forall n, In n nodes -> single n = true -> exists a t, r_coord_e n = a :: t /\ a < List.length (electride_structure atoms nodes)) ->
  exists l, atom_feature_indices_e atoms nodes = Done l.
Proof.
  intro H. unfold atom_feature_indices_e. destruct (add_atoms_ok nodes (repeat [] (List.length (electride_structure atoms nodes))) 0) as (l1 & E1).
  { now rewrite repeat_length. }
  rewrite E1. cbn [obind]. apply add_electrides_ok. apply add_atoms_spec in E1 as (-> & _). rewrite repeat_length, electride_structure_len. lia.
Qed.

Lemma in_numbered (k : nat) : forall l i n, In (i, n) (numbered k l) <-> k <= i /\ nth_error l (i - k) = Some n.
Proof.
  unfold numbered. intros l. revert k. induction l as [|m l IH]; intros k i n; cbn [List.length seq combine].
  - split; [intros []|]. intros [_ H]. now destruct (i - k).
  - cbn [In]. rewrite IH. split.
    + intros [[= <- <-]|[H E]]; [split; [lia|now rewrite Nat.sub_diag]|]. split; [lia|]. replace (i - k) with (S (i - S k)) by lia. exact E.
    + intros [H E]. destruct (Nat.eq_dec i k) as [->|NE]; [rewrite Nat.sub_diag in E; injection E as ->; now left|right].
      split; [lia|]. replace (i - k) with (S (i - S k)) in E by lia. exact E.
Qed.
Lemma numbered_sorted f : forall l k, StronglySorted lt (map fst (filter f (numbered k l))).
Proof.
  unfold numbered. induction l as [|m l IH]; intro k; cbn [List.length seq combine filter map]; [constructor|].
  destruct (f (k, m)); [|apply IH]. cbn [map fst]. constructor; [apply IH|]. apply Forall_forall. intros x H.
  apply in_map_iff in H as ((i, n) & <- & H). apply filter_In in H as [H _]. apply in_numbered in H. cbn. lia.
Qed.
(** The k-th bare node: [k] bare nodes stand before it. *)
Lemma kth_bare : forall l j k i n, nth_error (filter (fun p => type_in (r_type (snd p)) bare_types) (numbered j l)) k = Some (i, n) <->
  j <= i /\ nth_error l (i - j) = Some n /\ is_bare n /\ List.length (filter (fun m => type_in (r_type m) bare_types) (firstn (i - j) l)) = k.
Proof.
  unfold numbered. induction l as [|m l IH]; intros j k i n; cbn [List.length seq combine filter snd].
  - split; [destruct k; discriminate|]. intros (_ & H & _). now destruct (i - j).
  - destruct (Nat.eq_dec i j) as [->|NE].
    + rewrite Nat.sub_diag. cbn [nth_error firstn filter List.length]. destruct (type_in (r_type m) bare_types) eqn:B.
      * destruct k as [|k]; cbn [nth_error].
        -- split; [intros [= <-]; repeat split; auto; now apply type_bare|]. intros (_ & [= <-] & _). reflexivity.
        -- split; [|intros (_ & _ & _ & [=])]. intro H. apply IH in H. lia.
      * split; [intro H; apply IH in H; lia|]. intros (_ & [= <-] & X & _). apply type_bare in X. congruence.
    + assert (XX : forall P : Prop, (j <= i /\ P) <-> (S j <= i /\ P)) by (intro P; split; intros [? ?]; (split; [lia|assumption])).
      destruct (Nat.le_gt_cases j i) as [LE|GT].
      2:{ split; [|lia]. destruct (type_in (r_type m) bare_types); [destruct k as [|k]; cbn [nth_error]|]; intro H.
          - injection H as <- _. lia. - apply IH in H; lia. - apply IH in H. lia. }
      replace (i - j) with (S (i - S j)) by lia. cbn [nth_error firstn filter]. rewrite XX.
      destruct (type_in (r_type m) bare_types) eqn:B.
      * destruct k as [|k]; cbn [nth_error List.length].
        -- split; [intros [= <- _]; lia|]. intros (_ & _ & _ & [=]).
        -- rewrite IH. split; intros (a & b & c & d); repeat split; auto; lia.
      * apply IH.
Qed.

(** ** Maxima *)
Lemma np_max_spec l m : np_max l = Done m -> In m l /\ forall x, In x l -> (x <= m)%Q.
Proof.
  destruct l as [|x t]; [discriminate|]. cbn [np_max]. intro H.
  assert (G : forall t x m, fold_left (fun m y => if Qltb m y then y else m) t x = m -> (In m (x :: t)) /\ (x <= m)%Q /\ forall y, In y t -> (y <= m)%Q).
  { clear. induction t as [|y t IH]; intros x m H; cbn [fold_left] in H.
    - subst. split; [now left|]. split; [lra|]. intros ? [].
    - destruct (Qltb x y) eqn:L; apply IH in H as (I1 & I2 & I3).
      + apply Qltb_lt in L. split; [now right|]. split; [lra|]. intros z [<-|Z]; [exact I2|now apply I3].
      + apply Qltb_ge in L. split; [destruct I1 as [<-|]; [now left|right; now right]|]. split; [exact I2|]. intros z [<-|Z]; [lra|now apply I3]. }
  injection H as H. destruct (G t x m H) as (I1 & I2 & I3). split; [exact I1|]. intros y [<-|Y]; auto.
Qed.
Lemma max_values_spec vals : forall l r, max_values vals l = Done r -> List.length r = List.length l /\
  forall a, a < List.length l -> In (nth a r 0%Q) (map (fun i => nth i vals 0%Q) (nth a l [])) /\
    forall i, In i (nth a l []) -> (nth i vals 0 <= nth a r 0)%Q.
Proof.
  induction l as [|idx l IH]; intros r; cbn [max_values].
  - intros [= <-]. split; [reflexivity|]. cbn. lia.
  - destruct (np_max _) as [m| |] eqn:E; cbn [obind]; try discriminate. destruct (max_values vals l) as [r'| |] eqn:E'; cbn [obind]; try discriminate.
    intros [= <-]. destruct (IH r' eq_refl) as (L & N). apply np_max_spec in E as (E1 & E2). split; [cbn; congruence|].
    intros [|a] Ha; cbn [nth]; [|apply N; cbn in Ha; lia]. split; [exact E1|]. intros i Hi. apply E2. apply in_map_iff. eauto.
Qed.
Lemma max_values_iff vals : forall l, (exists r, max_values vals l = Done r) <-> forall idx, In idx l -> idx <> [].
Proof.
  induction l as [|idx l IH]; cbn [max_values].
  - split; [intros _ ? []|eauto].
  - destruct idx as [|i idx]; cbn [map np_max obind].
    + split; [intros (r & [=])|]. intro H. now specialize (H [] (or_introl eq_refl)).
    + destruct (max_values vals l) as [r'| |]; cbn [obind].
      * split; [|eauto]. intros _ x [<-|X]; [discriminate|]. apply IH; [eauto|exact X].
      * split; [intros (r & [=])|]. intro H. destruct (proj2 IH) as (r & [=]). intros x X. apply H. now right.
      * split; [intros (r & [=])|]. intro H. destruct (proj2 IH) as (r & [=]). intros x X. apply H. now right.
Qed.

(** ** Radii *)
Lemma first_true_spec : forall l, match first_true l with
  | Some i => nth_error l i = Some true /\ forall j, j < i -> nth_error l j = Some false
  | None => forall i, nth_error l i <> Some true end.
Proof.
  induction l as [|b l IH]; cbn [first_true]; [now intros [|i]|]. destruct b.
  - split; [reflexivity|lia].
  - destruct (first_true l) as [i|]; cbn [option_map].
    + destruct IH as (A & B). split; [exact A|]. intros [|j] H; [reflexivity|]. apply B. lia.
    + intros [|i]; [discriminate|]. apply IH.
Qed.
Lemma each_atom_spec f : forall l r, each_atom f l = Done r -> List.length r = List.length l /\
  forall k i, nth_error l k = Some i -> exists x, f i = Done x /\ nth_error r k = Some x.
Proof.
  induction l as [|a l IH]; intro r; cbn [each_atom].
  - intros [= <-]. split; [reflexivity|]. intros [|k]; discriminate.
  - destruct (f a) as [x| |] eqn:E; cbn [obind]; try discriminate. destruct (each_atom f l) as [t| |] eqn:E'; cbn [obind]; try discriminate.
    intros [= <-]. destruct (IH t eq_refl) as (L & N). split; [cbn; congruence|]. intros [|k] i H; [injection H as <-; exists x; auto|]. now apply N.
Qed.
Lemma each_atom_ok f : forall l, (forall i, In i l -> exists x, f i = Done x) -> exists r, each_atom f l = Done r.
Proof.
  induction l as [|a l IH]; intro H; [cbn; eauto|]. cbn [each_atom]. destruct (H a (or_introl eq_refl)) as (x & ->). cbn [obind].
  destruct IH as (r & ->); [intros i I; apply H; now right|]. cbn. eauto.
Qed.
Lemma nth_error_seq n : forall k i, i < n -> nth_error (seq k n) i = Some (k + i).
Proof. induction n as [|n IH]; intros k i H; [lia|]. destruct i; cbn; [f_equal; lia|]. rewrite IH by lia. f_equal. lia. Qed.

Section Radii.
Variable argsort : list Q -> list nat.
Hypothesis SORT : sorts argsort.
Variables (radii : list Q) (types : list bool) (sites : list nat).
Hypothesis LT : List.length types = List.length radii.
Hypothesis LS : List.length sites = List.length radii.

Lemma sorted_in k : In k (argsort radii) <-> k < List.length radii.
Proof. destruct (SORT radii) as (P & _). rewrite P, in_seq. lia. Qed.
Lemma sorted_le : forall a b i j, nth_error (argsort radii) i = Some a -> nth_error (argsort radii) j = Some b -> i <= j -> (nth a radii 0 <= nth b radii 0)%Q.
Proof.
  destruct (SORT radii) as (_ & S). revert S. generalize (argsort radii). intro l. induction l as [|x l IH]; intros S a b i j Ha Hb L; [destruct i; discriminate|].
  cbn [map] in S. inversion S as [|? ? S' F]; subst. destruct i as [|i].
  - injection Ha as ->. destruct j as [|j]; [injection Hb as ->; lra|]. rewrite Forall_forall in F. apply F. cbn [nth_error] in Hb. apply nth_error_In in Hb. now apply (in_map (fun t => nth t radii 0%Q)).
  - destruct j as [|j]; [lia|]. apply (IH S' a b i j Ha Hb). lia.
Qed.

Lemma atom_radius_spec i r t : atom_radius (argsort radii) sites radii types i = Done (r, t) ->
  (forall k, k < List.length radii -> nth k sites 0 <> i \/ (r <= nth k radii 0)%Q) /\
  exists k, k < List.length radii /\ r = nth k radii 0%Q /\ t = nth k types false /\
    ((exists k', k' < List.length radii /\ nth k' sites 0 = i) -> nth k sites 0 = i) /\
    (~ (exists k', k' < List.length radii /\ nth k' sites 0 = i) -> forall k', k' < List.length radii -> (r <= nth k' radii 0)%Q).
Proof.
  unfold atom_radius. set (s := argsort radii). set (mask := map (fun k => Nat.eqb (nth k sites 0) i) s).
  destruct (argmax_bool mask) as [first| |] eqn:EF; cbn [obind]; try discriminate.
  unfold row. destruct (nth_error s first) as [k|] eqn:EK; cbn [obind]; try discriminate.
  destruct (nth_error radii k) as [r0|] eqn:ER; cbn [obind]; try discriminate. destruct (nth_error types k) as [t0|] eqn:ET; cbn [obind]; try discriminate.
  intros [= <- <-]. assert (K : k < List.length radii) by (apply nth_error_Some; congruence).
  assert (R : r0 = nth k radii 0%Q) by (symmetry; now apply nth_error_nth). assert (T : t0 = nth k types false) by (symmetry; now apply nth_error_nth).
  unfold argmax_bool in EF. pose proof (first_true_spec mask) as FT.
  assert (PRES : forall k', k' < List.length radii -> exists p, nth_error s p = Some k').
  { intros k' H. apply In_nth_error. now apply sorted_in. }
  assert (MK : forall p k', nth_error s p = Some k' -> nth_error mask p = Some (Nat.eqb (nth k' sites 0) i)).
  { intros p k' H. unfold mask. now rewrite nth_error_map, H. }
  destruct mask as [|b0 mask0] eqn:EM; [discriminate|]. rewrite <- EM in *. injection EF as EF.
  destruct (first_true mask) as [f|]; subst first.
  - destruct FT as (F1 & F2). specialize (MK _ _ EK) as MF. rewrite F1 in MF. injection MF as MF. symmetry in MF. apply Nat.eqb_eq in MF. split.
    + intros k' H. destruct (PRES k' H) as (p & Hp). destruct (Nat.eq_dec (nth k' sites 0) i) as [E|]; [right|now left].
      subst r0. apply (sorted_le k k' f p EK Hp). destruct (Nat.le_gt_cases f p) as [|GT]; [assumption|]. specialize (F2 p GT). rewrite (MK _ _ Hp), E, Nat.eqb_refl in F2. discriminate.
    + exists k. do 3 (split; [assumption|]). split; [intros _; exact MF|]. intro N. exfalso. apply N. eauto.
  - assert (NO : forall k', k' < List.length radii -> nth k' sites 0 <> i).
    { intros k' H E. destruct (PRES k' H) as (p & Hp). apply (FT p). rewrite (MK _ _ Hp), E, Nat.eqb_refl. reflexivity. }
    split; [intros k' H; left; now apply NO|]. exists k. do 3 (split; [assumption|]). split; [intros (k' & H & E); exfalso; now apply (NO k')|].
    intros _ k' H. destruct (PRES k' H) as (p & Hp). subst r0. apply (sorted_le k k' 0 p EK Hp). lia.
Qed.
Lemma atom_radius_ok i : radii <> [] -> exists x, atom_radius (argsort radii) sites radii types i = Done x.
Proof.
  intro NE. unfold atom_radius. set (s := argsort radii). set (mask := map (fun k => Nat.eqb (nth k sites 0) i) s).
  assert (LL : List.length s = List.length radii) by (destruct (SORT radii) as (P & _); apply Permutation_length in P; now rewrite seq_length in P).
  assert (LM : List.length mask = List.length radii) by (unfold mask; now rewrite map_length).
  assert (P : 0 < List.length radii) by (destruct radii; [congruence|cbn; lia]).
  assert (A : exists f, argmax_bool mask = Done f /\ f < List.length radii).
  { unfold argmax_bool. pose proof (first_true_spec mask) as FT. destruct mask as [|b m] eqn:EM; [cbn in LM; lia|]. rewrite <- EM in *.
    destruct (first_true mask) as [f|]; [exists f; split; [reflexivity|]|exists 0; auto]. destruct FT as (F & _). rewrite <- LM. apply nth_error_Some. congruence. }
  destruct A as (f & -> & F). cbn [obind]. unfold row. destruct (nth_error s f) as [k|] eqn:EK; [|apply nth_error_None in EK; lia]. cbn [obind].
  assert (K : k < List.length radii) by (apply sorted_in; eapply nth_error_In; exact EK).
  destruct (nth_error radii k) eqn:ER; [|apply nth_error_None in ER; lia]. cbn [obind].
  destruct (nth_error types k) eqn:ET; [|apply nth_error_None in ET; lia]. cbn [obind]. eauto.
Qed.
End Radii.
