(** C178-C183: radii, features and sites reported by the labeler. *)
From Coq Require Import QArith Lqa String Sorted Permutation.
From Verif Require Import Base RootsModel UnionModel GridModel NeighModel ChargeModel LabelsModel NearModel SurfaceModel MarkModel CoordMerge CoordProps.
From Verif Require FeatLabModel.
From Verif Require Import ReportModel ReportProofs.
Local Open Scope nat_scope.

(** ** C178: the smallest radius of each atom *)
Theorem C178_smallest argsort n radii types sites l : sorts argsort ->
  List.length types = List.length radii -> List.length sites = List.length radii ->
  get_atom_elf_radii argsort n radii types sites = Done l ->
  List.length l = n /\
  forall i r t, nth_error l i = Some (r, t) -> In i sites ->
    (exists k, nth_error sites k = Some i /\ nth_error radii k = Some r /\ nth_error types k = Some t) /\
    forall k r', nth_error sites k = Some i -> nth_error radii k = Some r' -> (r <= r')%Q.
Proof.
  intros SO LT LS E. apply each_atom_spec in E as (L & N). rewrite seq_length in L. split; [exact L|]. intros i r t Hi Hs.
  assert (I : i < n) by (rewrite <- L; apply nth_error_Some; congruence).
  destruct (N i i) as (x & F & X); [now rewrite nth_error_seq|]. rewrite Hi in X. injection X as <-.
  destruct (atom_radius_spec argsort SO radii types sites LT LS i r t F) as (A & k & K & R & T & B & _).
  assert (P : exists k', k' < List.length radii /\ nth k' sites 0 = i).
  { apply (In_nth _ _ 0) in Hs as (k' & H & E'). exists k'. split; [congruence|exact E']. }
  specialize (B P). split.
  - exists k. subst i r t. split; [apply nth_error_nth'; congruence|]. split; apply nth_error_nth'; congruence.
  - intros k' r' S' R'. assert (K' : k' < List.length radii) by (apply nth_error_Some; congruence). destruct (A k' K') as [Z|Z].
    + exfalso. apply Z. now apply nth_error_nth.
    + now rewrite (nth_error_nth _ _ _ R') in Z.
Qed.
Print Assumptions C178_smallest.

(** An atom that occurs in no row is given the smallest radius of all rows. *)
Theorem C178_absent argsort n radii types sites l : sorts argsort ->
  List.length types = List.length radii -> List.length sites = List.length radii ->
  get_atom_elf_radii argsort n radii types sites = Done l ->
  forall i r t, nth_error l i = Some (r, t) -> ~ In i sites ->
    (exists k, nth_error radii k = Some r /\ nth_error types k = Some t) /\ forall r', In r' radii -> (r <= r')%Q.
Proof.
  intros SO LT LS E. apply each_atom_spec in E as (L & N). rewrite seq_length in L. intros i r t Hi Hs.
  assert (I : i < n) by (rewrite <- L; apply nth_error_Some; congruence).
  destruct (N i i) as (x & F & X); [now rewrite nth_error_seq|]. rewrite Hi in X. injection X as <-.
  destruct (atom_radius_spec argsort SO radii types sites LT LS i r t F) as (_ & k & K & R & T & _ & B). split.
  - exists k. subst r t. split; apply nth_error_nth'; congruence.
  - intros r' H. apply (In_nth _ _ 0%Q) in H as (k' & H & <-). apply B; [|exact H]. intros (k2 & H2 & <-). apply Hs, nth_In. congruence.
Qed.
Print Assumptions C178_absent.

Theorem C178_done argsort n radii types sites : sorts argsort ->
  List.length types = List.length radii -> List.length sites = List.length radii -> radii <> [] ->
  exists l, get_atom_elf_radii argsort n radii types sites = Done l.
Proof. intros SO LT LS NE. apply each_atom_ok. intros i _. now apply atom_radius_ok. Qed.
Print Assumptions C178_done.

Example C178_ex : get_atom_elf_radii sort_idx 3 [9 # 10; 7 # 10; 8 # 10; 12 # 10; 5 # 10]%Q [false; true; false; false; true] [0; 0; 1; 1; 0]
  = Done [(5 # 10, true); (8 # 10, false); (5 # 10, true)]%Q /\ sorts sort_idx.
Proof. split; [vm_compute; reflexivity|apply sort_idx_sorts]. Qed.

(** ** C179: the features that belong to one atom or electride alone *)
(** A feature with one neighbouring atom that is no electride is listed with its first neighbour among atoms and electrides; the
    electrides are numbered after the atoms in the order of the features. *)
Definition lone (nodes : list rnode) (i a : nat) : Prop :=
  exists n, nth_error nodes i = Some n /\ ~ is_bare n /\ List.length (r_coord n) = 1 /\ nth_error (r_coord_e n) 0 = Some a.
Definition bare_before (nodes : list rnode) (i : nat) : nat := List.length (filter (fun n => type_in (r_type n) bare_types) (firstn i nodes)).
Definition electride_at (nodes : list rnode) (i k : nat) : Prop :=
  exists n, nth_error nodes i = Some n /\ is_bare n /\ bare_before nodes i = k.

Lemma home_lone nodes i a n : nth_error nodes i = Some n -> home a n = true <-> lone nodes i a.
Proof.
  intro E. unfold home, single, lone. rewrite !Bool.andb_true_iff, Nat.eqb_eq, Bool.negb_true_iff, type_not_bare. split.
  - intros ((L & B) & H). exists n. repeat split; auto. destruct (r_coord_e n) as [|b t]; [discriminate|]. apply Nat.eqb_eq in H. now subst.
  - intros (m & E' & B & L & H). rewrite E in E'. injection E' as <-. repeat split; auto. destruct (r_coord_e n) as [|b t]; [discriminate|].
    injection H as ->. apply Nat.eqb_refl.
Qed.

Theorem C179_indices atoms nodes l : atom_feature_indices_e atoms nodes = Done l ->
  List.length l = List.length (electride_structure atoms nodes) /\
  forall a, a < List.length l -> NoDup (nth a l []) /\
    forall i, In i (nth a l []) <-> lone nodes i a \/ exists k, a = List.length atoms + k /\ electride_at nodes i k.
Proof.
  intro E. destruct (indices_spec atoms nodes l E) as (L & _ & N). split; [exact L|]. intros a _. rewrite N. unfold site_list.
  set (lo := map fst _). set (na := List.length atoms).
  assert (LO : forall i, In i lo <-> lone nodes i a).
  { intro i. unfold lo. rewrite in_map_iff. split.
    - intros ((j, n) & <- & H). apply filter_In in H as (H & Hn). apply in_numbered in H as (_ & H). rewrite Nat.sub_0_r in H. cbn [fst snd] in *. now apply (home_lone nodes j a n).
    - intros H. destruct H as (n & E' & R). exists (i, n). split; [reflexivity|]. apply filter_In. split; [apply in_numbered; rewrite Nat.sub_0_r; split; [lia|exact E']|].
      apply (home_lone nodes i a n E'). exists n. auto. }
  assert (EL : forall i, In i (if na <=? a then match nth_error (filter (fun p => type_in (r_type (snd p)) bare_types) (numbered 0 nodes)) (a - na) with
      | Some p => [fst p] | None => [] end else []) <-> exists k, a = na + k /\ electride_at nodes i k).
  { intro i. destruct (Nat.leb_spec na a) as [LE|GT].
    - split.
      + destruct (nth_error _ (a - na)) as [(j, n)|] eqn:K; [|intros []]. intros [<-|[]]. apply kth_bare in K as (_ & A & B & C). rewrite Nat.sub_0_r in *.
        exists (a - na). split; [lia|]. exists n. auto.
      + intros (k & -> & n & A & B & C). replace (na + k - na) with k by lia.
        rewrite (proj2 (kth_bare nodes 0 k i n)); [now left|]. rewrite Nat.sub_0_r. repeat split; auto. lia.
    - split; [intros []|]. intros (k & -> & _). lia. }
  split.
  - apply nodup_app; [apply sorted_nodup, numbered_sorted| |].
    + destruct (na <=? a); [|constructor]. destruct (nth_error _ _); [|constructor]. constructor; [intros []|constructor].
    + intros i Hi Hj. apply LO in Hi as (n & A & B & _). apply EL in Hj as (k & _ & m & A' & B' & _). rewrite A in A'. injection A' as <-. auto.
  - intro i. rewrite in_app_iff, LO, EL. reflexivity.
Qed.
Print Assumptions C179_indices.

(** No feature is listed twice. *)
Theorem C179_once atoms nodes l : atom_feature_indices_e atoms nodes = Done l ->
  forall a b i, In i (nth a l []) -> In i (nth b l []) -> a = b.
Proof.
  intros E a b i Ha Hb.
  assert (LA : a < List.length l) by (destruct (Nat.lt_ge_cases a (List.length l)); [assumption|rewrite nth_overflow in Ha by lia; destruct Ha]).
  assert (LB : b < List.length l) by (destruct (Nat.lt_ge_cases b (List.length l)); [assumption|rewrite nth_overflow in Hb by lia; destruct Hb]).
  destruct (C179_indices atoms nodes l E) as (_ & N). apply (N a LA) in Ha. apply (N b LB) in Hb.
  destruct Ha as [(n & A1 & A2 & A3 & A4)|(k & -> & n & A1 & A2 & A3)], Hb as [(m & B1 & B2 & B3 & B4)|(j & -> & m & B1 & B2 & B3)];
    rewrite A1 in B1; injection B1 as <-; try congruence; contradiction.
Qed.
Print Assumptions C179_once.

(** The lists exist exactly when every such feature has a first neighbour among the sites. *)
Theorem C179_defined atoms nodes : (exists l, atom_feature_indices_e atoms nodes = Done l) <->
  forall n, In n nodes -> ~ is_bare n -> List.length (r_coord n) = 1 ->
    exists a, nth_error (r_coord_e n) 0 = Some a /\ a < List.length (electride_structure atoms nodes).
Proof.
  assert (S : forall n, single n = true <-> ~ is_bare n /\ List.length (r_coord n) = 1).
  { intro n. unfold single. rewrite Bool.andb_true_iff, Nat.eqb_eq, Bool.negb_true_iff, type_not_bare. tauto. }
  split.
  - intros (l & E) n I B L. destruct (indices_spec atoms nodes l E) as (_ & H & _). destruct (H n I (proj2 (S n) (conj B L))) as (a & t & X & Y).
    exists a. rewrite X. auto.
  - intro H. apply indices_ok. intros n I X. apply S in X as (B & L). destruct (H n I B L) as (a & A & C).
    destruct (r_coord_e n) as [|b t]; [discriminate|]. injection A as ->. eauto.
Qed.
Print Assumptions C179_defined.

(** The value reported for a site is the highest of its features; reading the values fails exactly when a site has no feature. *)
Theorem C179_max atoms nodes l : atom_feature_indices_e atoms nodes = Done l ->
  ((exists v, atom_max_values_e atoms nodes = Done v) <-> forall a, a < List.length l -> nth a l [] <> []) /\
  forall v, atom_max_values_e atoms nodes = Done v -> List.length v = List.length l /\
    forall a x, nth_error v a = Some x ->
      (exists i n, In i (nth a l []) /\ nth_error nodes i = Some n /\ x = r_max n) /\
      forall i n, In i (nth a l []) -> nth_error nodes i = Some n -> (r_max n <= x)%Q.
Proof.
  intro E. unfold atom_max_values_e. rewrite E. cbn [obind]. split.
  - rewrite max_values_iff. split.
    + intros H a A. apply H, nth_In, A.
    + intros H idx I. apply (In_nth _ _ []) in I as (a & A & <-). now apply H.
  - intros v V. apply max_values_spec in V as (LV & V). split; [exact LV|]. intros a x X.
    assert (A : a < List.length l) by (rewrite <- LV; apply nth_error_Some; congruence). destruct (V a A) as (V1 & V2). rewrite (nth_error_nth _ _ _ X) in *.
    assert (RD : forall i n, nth_error nodes i = Some n -> nth i (map r_max nodes) 0%Q = r_max n) by (intros i n Hn; apply nth_error_nth; now apply map_nth_error).
    split.
    + apply in_map_iff in V1 as (i & <- & I). pose proof I as I'. apply (proj2 (C179_indices atoms nodes l E) a A) in I'.
      assert (H : exists n, nth_error nodes i = Some n) by (destruct I' as [(n & H & _)|(k & _ & n & H & _)]; eauto).
      destruct H as (n & H). exists i, n. repeat split; auto.
    + intros i n I Hn. rewrite <- (RD i n Hn). now apply V2.
Qed.
Print Assumptions C179_max.

(** Two atoms and one electride: a core each, a bond and the electride. *)
Definition rp_atoms : list (string * vec) := [("Ca"%string, (0, 0, 0)%Q); ("N"%string, (1 # 2, 1 # 2, 1 # 2)%Q)].
Definition rp_node t b f q m c ce := RNode t b f q m c ce.
Definition rp_nodes : list rnode :=
  [rp_node Shell [0] (0, 0, 0)%Q 10 (9 # 10) [0] [0]; rp_node BareElectron [1; 2] (1 # 4, 0, 0)%Q (18 # 10) (7 # 10) [0; 0] [0; 0; 1];
   rp_node Covalent [3] (1 # 4, 1 # 4, 1 # 4)%Q 1 (8 # 10) [0; 1] [0; 1]; rp_node LonePair [4] (1 # 2, 1 # 2, 3 # 5)%Q 2 (95 # 100) [1] [1];
   rp_node Shell [5] (1 # 2, 1 # 2, 1 # 2)%Q 2 (6 # 10) [1] [1]].
Example C179_ex : atom_feature_indices_e rp_atoms rp_nodes = Done [[0]; [3; 4]; [1]] /\
  atom_max_values_e rp_atoms rp_nodes = Done [9 # 10; 95 # 100; 7 # 10]%Q.
Proof. split; vm_compute; reflexivity. Qed.

(** ** C180: an electride is listed with its own feature only *)
(** Refuted: a multi-centred feature with one neighbouring atom whose first neighbour is the electride. *)
Theorem C180_electride_refuted : exists atoms nodes l i k, atom_feature_indices_e atoms nodes = Done l /\
  (forall n j, In n nodes -> In j (r_coord n) -> j < List.length atoms) /\
  (forall n j, In n nodes -> In j (r_coord_e n) -> j < List.length (electride_structure atoms nodes)) /\
  electride_at nodes i k /\ exists j n, In j (nth (List.length atoms + k) l []) /\ nth_error nodes j = Some n /\ ~ is_bare n.
Proof.
  exists [("Y"%string, (0, 0, 0)%Q)], [rp_node Shell [0] (0, 0, 0)%Q 10 1 [0] [0]; rp_node BareElectron [1] (1 # 2, 0, 0)%Q 1 1 [0; 0] [0; 0];
    rp_node MultiCentered [2] (1 # 2, 1 # 5, 0)%Q (1 # 10) (1 # 2) [0] [1; 0]], [[0]; [2; 1]], 1, 0.
  split; [vm_compute; reflexivity|]. split; [|split; [|split]].
  - intros n j [<-|[<-|[<-|[]]]] J; cbn in *; lia.
  - intros n j [<-|[<-|[<-|[]]]] J; cbn in *; lia.
  - eexists. split; [reflexivity|]. split; [right; reflexivity|reflexivity].
  - exists 2. eexists. split; [now left|]. split; [reflexivity|]. intros [H|H]; discriminate.
Qed.
Print Assumptions C180_electride_refuted.

(** It holds when the first neighbours of the features around one atom are atoms. *)
Theorem C180_alone atoms nodes l i k : atom_feature_indices_e atoms nodes = Done l ->
  (forall n a, In n nodes -> ~ is_bare n -> List.length (r_coord n) = 1 -> nth_error (r_coord_e n) 0 = Some a -> a < List.length atoms) ->
  electride_at nodes i k -> nth (List.length atoms + k) l [] = [i].
Proof.
  intros E H K. destruct (C179_indices atoms nodes l E) as (L & N). set (a := List.length atoms + k).
  assert (A : a < List.length l).
  { rewrite L, electride_structure_len. unfold a. destruct K as (n & X & B & <-). apply -> Nat.add_lt_mono_l || apply Nat.add_lt_mono_l. unfold bare_before.
    rewrite <- (firstn_skipn i nodes) at 2. rewrite filter_app, app_length.
    destruct (skipn i nodes) as [|m t] eqn:SK.
    - exfalso. rewrite <- (firstn_skipn i nodes), SK, app_nil_r in X. assert (LE : List.length (firstn i nodes) <= i) by apply firstn_le_length. apply nth_error_None in LE. congruence.
    - assert (m = n); [|subst m; cbn [filter]; rewrite (proj2 (type_bare n) B); cbn; lia].
      rewrite <- (firstn_skipn i nodes), SK in X.
      assert (LE : List.length (firstn i nodes) = i).
      { apply firstn_length_le. assert (LS : List.length (skipn i nodes) = S (List.length t)) by now rewrite SK. rewrite skipn_length in LS. lia. }
      rewrite nth_error_app2, LE, Nat.sub_diag in X by lia. now injection X. }
  destruct (N a A) as (ND & IN).
  assert (I : In i (nth a l [])) by (apply IN; right; exists k; auto).
  assert (O : forall j, In j (nth a l []) -> j = i).
  { intros j J. apply IN in J as [(n & X & B & C & D)|(k' & EQ & n & X & B & C)].
    - specialize (H n a (nth_error_In _ _ X) B C D). unfold a in H. lia.
    - assert (KK : k' = k) by (unfold a in EQ; lia). rewrite KK in C. clear KK EQ. destruct K as (m & X' & B' & C').
      destruct (kth_bare nodes 0 k j n) as (_ & K1). destruct (kth_bare nodes 0 k i m) as (_ & K2). rewrite Nat.sub_0_r in *.
      unfold bare_before in C, C'. specialize (K1 (conj (Nat.le_0_l _) (conj X (conj B C)))). specialize (K2 (conj (Nat.le_0_l _) (conj X' (conj B' C')))). congruence. }
  destruct (nth a l []) as [|x [|y t]]; [destruct I| |].
  - f_equal. now apply O; left.
  - exfalso. inversion ND as [|? ? NI _]; subst. apply NI. rewrite (O x) by now left. rewrite (O y) by (right; now left). now left.
Qed.
Print Assumptions C180_alone.

(** ** C181: every site has a highest ELF value *)
(** Refuted by two hydrogen atoms: the only feature is the bond between them. *)
Theorem C181_max_refuted : exists atoms nodes, nodes <> [] /\
  (forall n j, In n nodes -> In j (r_coord n) -> j < List.length atoms) /\
  (forall n, In n nodes -> r_coord_e n = r_coord n) /\
  atom_feature_indices_e atoms nodes = Done [[]; []] /\ atom_max_values_e atoms nodes = Raised.
Proof.
  exists [("H"%string, (0, 0, 0)%Q); ("H"%string, (0, 0, 3 # 4)%Q)], [rp_node Covalent [0; 1] (0, 0, 3 # 8)%Q 2 1 [0; 1] [0; 1]].
  split; [discriminate|]. split; [|split; [|split; reflexivity]].
  - intros n j [<-|[]] J; cbn in *; lia.
  - intros n [<-|[]]. reflexivity.
Qed.
Print Assumptions C181_max_refuted.

(** ** C182: structures with features *)
Definition picked (nodes : list rnode) (included : list ftype) (order_by_type : bool) (idx : list nat) : Prop :=
  (forall i, In i idx <-> exists n, nth_error nodes i = Some n /\ In (r_type n) included) /\ NoDup idx /\
  (order_by_type = false -> StronglySorted lt idx) /\
  (order_by_type = true -> exists b o, idx = b ++ o /\ StronglySorted lt b /\ StronglySorted lt o /\
     (forall i n, In i b -> nth_error nodes i = Some n -> is_bare n) /\ (forall i n, In i o -> nth_error nodes i = Some n -> ~ is_bare n)).

Theorem C182_structure atoms nodes included order s idx : get_feature_structure atoms nodes included order = (s, idx) ->
  picked nodes included order idx /\
  List.length s = List.length atoms + List.length idx /\
  (forall a, a < List.length atoms -> nth_error s a = nth_error atoms a) /\
  forall k i n, nth_error idx k = Some i -> nth_error nodes i = Some n ->
    nth_error s (List.length atoms + k) = Some (dummy_species (r_type n), r_frac n).
Proof.
  intro E. injection E as <- <-. unfold structure_by_index. rewrite (fold_append (fun i => site_of (nth i nodes no_node))).
  set (idx := if order then _ else _). split; [|split; [now rewrite app_length, map_length|split]].
  - pose proof (sorted_seq_filter (fun i => type_in (r_type (nth i nodes no_node)) included) (List.length nodes) 0) as SS.
    unfold picked, idx. fold (indices_by_type nodes included) in SS. destruct order.
    + rewrite split_bare_eq. cbn [app]. set (l := indices_by_type nodes included) in *. split; [|split; [|split]].
      * intro i. rewrite in_app_iff, !filter_In, <- in_by_type. fold l. destruct (type_in _ bare_types); cbn [negb]; tauto || (intuition congruence).
      * apply nodup_app; [apply NoDup_filter, sorted_nodup, SS|apply NoDup_filter, sorted_nodup, SS|].
        intros x H1 H2. apply filter_In in H1 as (_ & H1), H2 as (_ & H2). rewrite H1 in H2. discriminate.
      * discriminate.
      * intros _. eexists. eexists. split; [reflexivity|]. split; [now apply filter_sorted|]. split; [now apply filter_sorted|].
        split; intros i n H X; apply filter_In in H as (_ & H); rewrite (nth_error_nth _ _ _ X) in H.
        -- now apply type_bare. -- apply type_not_bare. now destruct (type_in (r_type n) bare_types).
    + split; [intro i; apply in_by_type|]. split; [now apply sorted_nodup|]. split; [auto|discriminate].
  - intros a A. now rewrite nth_error_app1.
  - intros k i n K N. rewrite nth_error_app2 by lia. replace (List.length atoms + k - List.length atoms) with k by lia.
    rewrite nth_error_map, K. cbn. now rewrite (nth_error_nth _ _ _ N).
Qed.
Print Assumptions C182_structure.

(** The structure of the atoms and electrides is the beginning of the ordered structure of the valence features. *)
Theorem C182_prefix atoms nodes included : (forall t, In t bare_types -> In t included) ->
  exists rest, fst (get_feature_structure atoms nodes included true) = electride_structure atoms nodes ++ rest /\
    forall p, In p rest -> exists n, In n nodes /\ In (r_type n) included /\ ~ is_bare n /\ p = (dummy_species (r_type n), r_frac n).
Proof.
  intro B. unfold get_feature_structure, fst, structure_by_index. rewrite (fold_append (fun i => site_of (nth i nodes no_node))), split_bare_eq. cbn [app].
  rewrite electride_structure_eq, map_app, app_assoc. eexists. split; [f_equal; f_equal|].
  - unfold indices_by_type, get_feature_nodes.
    assert (G : forall l k (f : nat -> rnode), (forall i, i < List.length l -> f (k + i) = nth i l no_node) ->
      map (fun i => site_of (f i)) (filter (fun i => type_in (r_type (f i)) bare_types) (filter (fun i => type_in (r_type (f i)) included) (seq k (List.length l)))) =
      map site_of (filter (fun n => type_in (r_type n) bare_types) l)).
    { induction l as [|n l IH]; intros k f F; [reflexivity|]. cbn [List.length seq filter].
      assert (F0 : f k = n) by (rewrite <- (Nat.add_0_r k), (F 0) by (cbn; lia); reflexivity). rewrite F0.
      assert (IH' := IH (S k) f ltac:(intros i H; rewrite Nat.add_succ_l, <- Nat.add_succ_r, (F (S i)) by (cbn; lia); reflexivity)).
      destruct (type_in (r_type n) bare_types) eqn:TB.
      - replace (type_in (r_type n) included) with true by (symmetry; apply type_in_iff, B, type_in_iff, TB).
        cbn [filter]. rewrite F0, TB. cbn [map]. now rewrite F0, IH'.
      - destruct (type_in (r_type n) included); cbn [filter]; rewrite ?F0, ?TB; exact IH'. }
    apply (G nodes 0 (fun i => nth i nodes no_node)). intros i _. reflexivity.
  - intros p H. apply in_map_iff in H as (i & <- & H). apply filter_In in H as (H & NB). apply in_by_type in H as (n & X & T).
    rewrite (nth_error_nth _ _ _ X) in *. exists n. split; [eapply nth_error_In; exact X|]. split; [exact T|]. split; [|reflexivity].
    apply type_not_bare. now destruct (type_in (r_type n) bare_types).
Qed.
Print Assumptions C182_prefix.

(** Its sites are those that [get_feature_labels] numbers, so a label of a voxel is the index of a site. *)
Definition code (t : ftype) : nat :=
  match t with
  | Unknown => 0 | Shell => 1 | Core => 2 | Covalent => 3 | CovalentMetallic => 4 | ShallowCovalentMetallic => 5 | Metallic => 6
  | LonePair => 7 | MultiCentered => 8 | Electride => 9 | BareElectron => 10
  end.
Lemma code_inj a b : code a = code b -> a = b.
Proof. destruct a, b; (reflexivity || discriminate). Qed.
Theorem C182_labels atoms nodes included order :
  FeatLabModel.selected (fun c => (Nat.eqb c 9 || Nat.eqb c 10)%bool) (map (fun n => FeatLabModel.LFeature (code (r_type n)) (r_basins n)) nodes)
    (map code included) order = snd (get_feature_structure atoms nodes included order).
Proof.
  unfold FeatLabModel.selected, get_feature_structure, snd, FeatLabModel.feature_indices_by_type, indices_by_type. rewrite map_length.
  set (fs := map _ nodes).
  assert (T : forall i, FeatLabModel.type_of fs i = code (r_type (nth i nodes no_node))).
  { intro i. unfold FeatLabModel.type_of, fs. change (FeatLabModel.LFeature 0 []) with ((fun n => FeatLabModel.LFeature (code (r_type n)) (r_basins n)) no_node).
    now rewrite map_nth. }
  assert (IE : filter (fun i => existsb (Nat.eqb (FeatLabModel.type_of fs i)) (map code included)) (seq 0 (List.length nodes)) =
               filter (fun i => type_in (r_type (nth i nodes no_node)) included) (seq 0 (List.length nodes))).
  { apply filter_ext. intro i. rewrite T. apply Bool.eq_true_iff_eq. rewrite type_in_iff, existsb_exists. split.
    - intros (x & H & E). apply Nat.eqb_eq in E. subst x. apply in_map_iff in H as (t & E & H). apply code_inj in E. now subst t.
    - intro H. eexists. split; [apply in_map, H|apply Nat.eqb_refl]. }
  rewrite IE. destruct order; [|reflexivity]. generalize (filter (fun i => type_in (r_type (nth i nodes no_node)) included) (seq 0 (List.length nodes))).
  intro l. generalize (@nil nat) at 2 4. generalize (@nil nat). induction l as [|i l IH]; intros b o; [reflexivity|].
  cbn [FeatLabModel.order_features split_bare]. rewrite T.
  replace (Nat.eqb (code (r_type (nth i nodes no_node))) 9 || Nat.eqb (code (r_type (nth i nodes no_node))) 10)%bool
    with (type_in (r_type (nth i nodes no_node)) bare_types) by (now destruct (r_type (nth i nodes no_node))).
  destruct (type_in (r_type (nth i nodes no_node)) bare_types); apply IH.
Qed.
Print Assumptions C182_labels.

Example C182_ex : get_feature_structure rp_atoms rp_nodes valence_types true =
  (rp_atoms ++ [("E"%string, (1 # 4, 0, 0)%Q); ("Z"%string, (1 # 4, 1 # 4, 1 # 4)%Q)], [1; 2]) /\
  nelectrides rp_atoms rp_nodes = 1.
Proof. split; vm_compute; reflexivity. Qed.

(** ** C183: sites that make a bond covalent *)
Lemma covalent_labels_spec s symbols i : List.length (covalent_labels s symbols) = List.length s /\
  (nth i (covalent_labels s symbols) false = true <-> exists p, nth_error s i = Some p /\ In (fst p) symbols).
Proof.
  unfold covalent_labels.
  assert (IN : forall l idx, List.length (fold_left (fun l i => upd l i true) idx l) = List.length l /\
    forall j, nth j (fold_left (fun l i => upd l i true) idx l) false = true <-> nth j l false = true \/ (In j idx /\ j < List.length l)).
  { intros l idx. revert l. induction idx as [|x idx IH]; intro l; cbn [fold_left]; [split; [reflexivity|]; intro j; cbn; tauto|].
    destruct (IH (upd l x true)) as (L & N). rewrite upd_len in *. split; [exact L|]. intro j. rewrite N, nth_upd. cbn [In].
    destruct (Nat.eqb_spec x j) as [->|NE]; cbn [andb].
    - destruct (Nat.ltb_spec j (List.length l)); [tauto|]. split; [tauto|]. intros [H'|[_ H']]; [tauto|lia].
    - tauto. }
  assert (G : forall l, List.length l = List.length s ->
    let r := fold_left (fun l symbol => fold_left (fun l i => upd l i true) (indices_from_symbol s symbol) l) symbols l in
    List.length r = List.length s /\ (nth i r false = true <-> nth i l false = true \/ exists p, nth_error s i = Some p /\ In (fst p) symbols)).
  { induction symbols as [|y symbols IH]; intros l L; cbn [fold_left]; [split; [exact L|]; split; [tauto|]; intros [H|(p & _ & [])]; exact H|].
    destruct (IN l (indices_from_symbol s y)) as (L1 & N1). destruct (IH _ (eq_trans L1 L)) as (L2 & N2). split; [exact L2|].
    cbv zeta in N2. rewrite N2, N1, L. unfold indices_from_symbol. rewrite filter_In, in_seq, String.eqb_eq. cbn [In]. split.
    - intros [[H|((H & H') & _)]|(p & P & H)]; [now left| |right; exists p; auto].
      right. destruct (nth_error s i) as [p|] eqn:P; [|apply nth_error_None in P; lia]. exists p. split; [reflexivity|]. left. now rewrite (nth_error_nth _ _ _ P) in H'.
    - intros [H|(p & P & [H|H])]; [tauto| |right; eauto]. left. right.
      assert (i < List.length s) by (apply nth_error_Some; congruence). rewrite (nth_error_nth _ _ _ P). repeat split; auto; lia. }
  destruct (G (repeat false (List.length s))) as (A & B); [apply repeat_length|]. split; [exact A|]. rewrite B.
  assert (R : forall n j, nth j (repeat false n) false = false) by (clear; induction n as [|n IH]; intros [|j]; cbn; auto). rewrite R.
  split; [intros [[=]|H]; exact H|auto].
Qed.

(** Features count as covalent when they are valence features, except that bare electrons do not when they are sites of their
    own; atoms never do. *)
Theorem C183_covalent atoms nodes use_e symbols : (forall s, In s symbols <-> In s (map dummy_species (covalent_types use_e))) ->
  (forall s f, In (s, f) atoms -> forall t, s <> dummy_species t) ->
  forall s idx, get_feature_structure atoms nodes valence_types true = (s, idx) ->
  List.length (covalent_labels s symbols) = List.length s /\
  (forall a, a < List.length atoms -> nth a (covalent_labels s symbols) false = false) /\
  forall k i n, nth_error idx k = Some i -> nth_error nodes i = Some n ->
    nth (List.length atoms + k) (covalent_labels s symbols) false = true <-> ~ (use_e = true /\ is_bare n).
Proof.
  intros SY AT s idx E. destruct (C182_structure _ _ _ _ _ _ E) as (P & L & A & F). split; [exact (proj1 (covalent_labels_spec s symbols 0))|]. split.
  - intros a Ha. destruct (nth a (covalent_labels s symbols) false) eqn:X; [|reflexivity]. exfalso.
    apply covalent_labels_spec in X as ((sy, f) & N & H). rewrite A in N by exact Ha. apply SY in H. apply in_map_iff in H as (t & H & _).
    apply (AT sy f (nth_error_In _ _ N) t). now symmetry.
  - intros k i n K N. rewrite (proj2 (covalent_labels_spec s symbols (List.length atoms + k))), (F k i n K N).
    assert (V : In (r_type n) valence_types).
    { destruct (proj1 (proj1 P i)) as (m & M & V); [eapply nth_error_In; exact K|]. rewrite N in M. injection M as <-. exact V. }
    split.
    + intros (p & [= <-] & H) (-> & B). cbn [fst] in H. apply SY in H. destruct B as [B|B]; rewrite B in H; cbn in H; intuition discriminate.
    + intro H. eexists. split; [reflexivity|]. cbn [fst]. apply SY, in_map. unfold covalent_types. destruct use_e; [|exact V].
      apply filter_In. split; [exact V|]. rewrite (proj2 (type_not_bare n)); [reflexivity|]. intro B. apply H. auto.
Qed.
Print Assumptions C183_covalent.

Example C183_ex : covalent_labels (fst (get_feature_structure rp_atoms rp_nodes valence_types true)) (map dummy_species (covalent_types true)) = [false; false; false; true]
  /\ covalent_labels (fst (get_feature_structure rp_atoms rp_nodes valence_types true)) (map dummy_species (covalent_types false)) = [false; false; true; true].
Proof. split; vm_compute; reflexivity. Qed.
