(** Editing operations keep the bifurcation graph well formed. *)
From Coq Require Import QArith Permutation.
From Verif Require Import Base RootsModel UnionModel LabelsModel NodesModel NodesSpec.
Local Open Scope Z_scope.

(** ** Lists *)
Lemma in_without x l y : In y (without x l) <-> In y l /\ y <> x.
Proof. unfold without. rewrite filter_In, negb_true_iff, Nat.eqb_neq. tauto. Qed.

Lemma without_nodup x l : NoDup l -> NoDup (without x l).
Proof. apply NoDup_filter. Qed.

Lemma without_id x l : ~ In x l -> without x l = l.
Proof.
  induction l as [|y t IH]; intro H; simpl; [reflexivity|].
  destruct (Nat.eqb_spec y x); [exfalso; apply H; now left|]. simpl. f_equal. apply IH. intro. apply H. now right.
Qed.

Lemma nodup_map_filter {A B} (f : A -> B) p (l : list A) : NoDup (map f l) -> NoDup (map f (filter p l)).
Proof.
  induction l as [|x t IH]; simpl; intro H; [constructor|]. inversion H; subst.
  destruct (p x); simpl; [|auto]. constructor; [|auto]. intro Hin. apply in_map_iff in Hin as (y & E & Hy).
  apply filter_In in Hy as (Hy & _). apply H2. rewrite <- E. now apply in_map.
Qed.

Lemma NoDup_app_iff_local {A} (l m : list A) : NoDup l -> NoDup m ->
  (forall x, In x l -> In x m -> False) -> NoDup (l ++ m).
Proof.
  induction l as [|x t IH]; simpl; intros Nl Nm D; [exact Nm|]. inversion Nl; subst.
  constructor; [|apply IH; auto; intros y Y1 Y2; apply (D y); auto].
  rewrite in_app_iff. intros [H|H]; [contradiction|]. apply (D x); auto.
Qed.

Lemma before_in l a b : before l a b -> In a l /\ In b l.
Proof. intros (l1 & l2 & -> & H). split; apply in_or_app; [now left|right; now left]. Qed.

Lemma before_filter f l a b : before l a b -> f a = true -> f b = true -> before (filter f l) a b.
Proof.
  intros (l1 & l2 & -> & H) Fa Fb. exists (filter f l1), (filter f l2).
  rewrite filter_app. simpl. rewrite Fb. split; [reflexivity|]. apply filter_In. now split.
Qed.

Lemma before_app l m a b : before l a b -> before (l ++ m) a b.
Proof. intros (l1 & l2 & -> & H). exists l1, (l2 ++ m). rewrite <- app_assoc. now split. Qed.

Fixpoint pos (l : list nat) (x : nat) : nat :=
  match l with [] => 0 | y :: t => if Nat.eqb y x then 0 else S (pos t x) end%nat.

Lemma pos_lt l x : In x l -> (pos l x < length l)%nat.
Proof.
  induction l as [|y t IH]; simpl; [tauto|]. intros [->|H]; [rewrite Nat.eqb_refl; lia|].
  destruct (Nat.eqb_spec y x); [lia|]. specialize (IH H). lia.
Qed.

Lemma pos_app_in l m x : In x l -> pos (l ++ m) x = pos l x.
Proof.
  induction l as [|y t IH]; simpl; [tauto|]. intros [->|H]; [now rewrite Nat.eqb_refl|].
  destruct (Nat.eqb y x); [reflexivity|]. now rewrite IH.
Qed.

Lemma pos_app_out l m x : ~ In x l -> pos (l ++ m) x = (length l + pos m x)%nat.
Proof.
  induction l as [|y t IH]; simpl; intro H; [reflexivity|].
  destruct (Nat.eqb_spec y x); [tauto|]. rewrite IH by tauto. reflexivity.
Qed.

Lemma before_pos l a b : NoDup l -> before l a b -> (pos l a < pos l b)%nat.
Proof.
  intros N (l1 & l2 & -> & H). rewrite pos_app_in by exact H.
  apply NoDup_remove in N as (_ & N). rewrite pos_app_out by (rewrite in_app_iff in N; tauto).
  pose proof (pos_lt _ _ H). lia.
Qed.

Lemma before_trans l a b c : NoDup l -> before l a b -> before l b c -> before l a c.
Proof.
  intros N H1 (l1 & l2 & -> & H). exists l1, l2. split; [reflexivity|].
  destruct (in_dec Nat.eq_dec a l1) as [I|I]; [exact I|exfalso].
  pose proof (before_pos _ _ _ N H1) as P. rewrite (pos_app_in l1 _ b H) in P.
  rewrite (pos_app_out l1 _ a I) in P. pose proof (pos_lt _ _ H). lia.
Qed.

Lemma before_irrefl l a : NoDup l -> ~ before l a a.
Proof. intros N H. pose proof (before_pos _ _ _ N H). lia. Qed.

Lemma dict_has_in k d : dict_has k d = true <-> In k (map fst d).
Proof.
  unfold dict_has. rewrite existsb_exists, in_map_iff. split.
  - intros (e & H & E). apply Z.eqb_eq in E. now exists e.
  - intros (e & E & H). exists e. split; [exact H|]. now apply Z.eqb_eq.
Qed.

Lemma dict_del_in k d e : In e (dict_del d k) <-> In e d /\ fst e <> k.
Proof. unfold dict_del. rewrite filter_In, negb_true_iff, Z.eqb_neq. tauto. Qed.

(** ** Heap *)
Definition static (n : node) := (n_key n, n_red n, n_basins n, n_infinite n, n_min n).
Definition same_static (g g' : graph) := forall j, static (g_heap g' j) = static (g_heap g j).

Lemma hset_same h i n : hset h i n i = n.
Proof. unfold hset. now rewrite Nat.eqb_refl. Qed.
Lemma hset_other h i j n : i <> j -> hset h i n j = h j.
Proof. intro H. unfold hset. destruct (Nat.eqb_spec i j); congruence. Qed.
Lemma hset_eq h i n j : hset h i n j = if Nat.eqb i j then n else h j.
Proof. reflexivity. Qed.

Lemma static_trans g1 g2 g3 : same_static g1 g2 -> same_static g2 g3 -> same_static g1 g3.
Proof. intros A B j. now rewrite (B j), (A j). Qed.

Lemma static_on g i f : (forall n, static (f n) = static n) -> same_static g (on_node g i f).
Proof. intros F j. cbn. rewrite hset_eq. destruct (Nat.eqb_spec i j); [subst; apply F|reflexivity]. Qed.

Lemma static_key g g' j : same_static g g' -> key_of g' j = key_of g j.
Proof. intro S. specialize (S j). unfold static in S. unfold key_of. congruence. Qed.
Lemma static_red g g' j : same_static g g' -> n_red (g_heap g' j) = n_red (g_heap g j).
Proof. intro S. specialize (S j). unfold static in S. congruence. Qed.
Lemma static_basins g g' j : same_static g g' -> basins_of g' j = basins_of g j.
Proof. intro S. specialize (S j). unfold static in S. unfold basins_of. congruence. Qed.
Lemma static_min g g' j : same_static g g' -> n_min (g_heap g' j) = n_min (g_heap g j).
Proof. intro S. specialize (S j). unfold static in S. congruence. Qed.
Lemma static_inf g g' j : same_static g g' -> n_infinite (g_heap g' j) = n_infinite (g_heap g j).
Proof. intro S. specialize (S j). unfold static in S. congruence. Qed.

Lemma parent_on_children g i c j :
  parent_of (on_node g i (fun n => set_children (c n) n)) j = parent_of g j.
Proof. unfold parent_of. cbn. rewrite hset_eq. destruct (Nat.eqb_spec i j); subst; reflexivity. Qed.
Lemma max_on_children g i c j :
  n_max (g_heap (on_node g i (fun n => set_children (c n) n)) j) = n_max (g_heap g j).
Proof. cbn. rewrite hset_eq. destruct (Nat.eqb_spec i j); subst; reflexivity. Qed.
Lemma parent_on_parent g i p j :
  parent_of (on_node g i (set_parent_f p)) j = if Nat.eqb i j then p else parent_of g j.
Proof. unfold parent_of. cbn. rewrite hset_eq. destruct (Nat.eqb_spec i j); subst; reflexivity. Qed.
Lemma max_on_parent g i p j :
  n_max (g_heap (on_node g i (set_parent_f p)) j) = n_max (g_heap g j).
Proof. cbn. rewrite hset_eq. destruct (Nat.eqb_spec i j); subst; reflexivity. Qed.

(** Everything but the heap is unchanged. *)
Definition same_lists (g g' : graph) : Prop :=
  g_next g' = g_next g /\ g_nodes g' = g_nodes g /\ g_keys g' = g_keys g.

(** ** Handing children to a new parent *)
Lemma set_parents_ok p i cs : forall g, p <> i -> ~ In p cs -> ~ In i cs -> NoDup cs ->
  n_red (g_heap g i) = true -> n_red (g_heap g p) = true ->
  (forall c, In c cs -> parent_of g c = Some i) ->
  exists g', set_parents g cs p = Done g' /\ same_lists g g' /\ g_roots g' = g_roots g /\
    same_static g g' /\
    (forall j, n_max (g_heap g' j) = n_max (g_heap g j)) /\
    (forall j, parent_of g' j = if existsb (Nat.eqb j) cs then Some p else parent_of g j) /\
    children_of g' p = children_of g p ++ cs /\
    (forall x, In x (children_of g' i) <-> In x (children_of g i) /\ ~ In x cs) /\
    (forall j, j <> p -> j <> i -> children_of g' j = children_of g j).
Proof.
  induction cs as [|c t IH]; intros g Npi Np Ni N Ri Rp HP.
  { exists g. cbn [set_parents existsb]. rewrite app_nil_r.
    repeat split; auto; try tauto; intros; tauto. }
  cbn [set_parents]. inversion N; subst.
  assert (Nc1 : c <> p) by (intro; subst; apply Np; now left).
  assert (Nc2 : c <> i) by (intro; subst; apply Ni; now left).
  unfold set_parent. pose proof (HP c (or_introl eq_refl)) as Pc. unfold parent_of in Pc. rewrite Pc, Ri.
  cbn [negb].
  set (g1 := on_node g i (fun n => set_children (without c (n_children n)) n)).
  set (g2 := on_node g1 c (set_parent_f (Some p))).
  assert (S12 : same_static g g2).
  { eapply static_trans; apply static_on; intro n; reflexivity. }
  rewrite (static_red _ _ p S12), Rp. cbn [negb obind].
  set (g3 := on_node g2 p (fun n => set_children (n_children n ++ [c]) n)).
  assert (S13 : same_static g g3).
  { eapply static_trans; [exact S12|]. apply static_on. intro n. reflexivity. }
  assert (P3 : forall j, parent_of g3 j = if Nat.eqb j c then Some p else parent_of g j).
  { intro j. unfold g3, g2, g1. rewrite parent_on_children, parent_on_parent, parent_on_children.
    rewrite (Nat.eqb_sym c j). reflexivity. }
  assert (C3p : children_of g3 p = children_of g p ++ [c]).
  { unfold children_of, g3, g2, g1, on_node. cbn. rewrite hset_same. cbn.
    rewrite hset_other by congruence. rewrite hset_other by congruence. reflexivity. }
  assert (C3i : children_of g3 i = without c (children_of g i)).
  { unfold children_of, g3, g2, g1, on_node. cbn. rewrite hset_other by congruence.
    rewrite hset_other by congruence. rewrite hset_same. reflexivity. }
  assert (C3 : forall j, j <> p -> j <> i -> children_of g3 j = children_of g j).
  { intros j J1 J2. unfold children_of, g3, g2, g1, on_node. cbn. rewrite (hset_other _ p j) by congruence.
    rewrite hset_eq. destruct (Nat.eqb_spec c j).
    - subst. cbn. rewrite hset_other by congruence. reflexivity.
    - rewrite hset_other by congruence. reflexivity. }
  assert (M3 : forall j, n_max (g_heap g3 j) = n_max (g_heap g j)).
  { intro j. unfold g3, g2, g1. now rewrite max_on_children, max_on_parent, max_on_children. }
  destruct (IH g3) as (g' & E & (L1 & L2 & L3) & L4 & S' & M' & P' & Cp & Ci & Cj).
  { exact Npi. } { intro; apply Np; now right. } { intro; apply Ni; now right. } { assumption. }
  { rewrite (static_red _ _ i S13). exact Ri. } { rewrite (static_red _ _ p S13). exact Rp. }
  { intros x Hx. rewrite P3. destruct (Nat.eqb_spec x c); [subst; contradiction|]. apply HP. now right. }
  exists g'. split; [exact E|]. split; [repeat split; assumption|]. split; [exact L4|].
  split; [eapply static_trans; eauto|]. split; [intro j; now rewrite M', M3|]. split; [|split; [|split]].
  - intro j. rewrite P'. cbn [existsb]. rewrite P3. destruct (Nat.eqb j c); cbn [orb]; [|reflexivity].
    destruct (existsb (Nat.eqb j) t); reflexivity.
  - rewrite Cp, C3p, <- app_assoc. reflexivity.
  - intro x. rewrite Ci, C3i, in_without. simpl. intuition congruence.
  - intros j J1 J2. rewrite Cj, C3 by assumption. reflexivity.
Qed.

Lemma root_children_ok cs : forall g,
  let g' := fold_left (fun g c => on_node (with_roots g (g_roots g ++ [c])) c (set_parent_f None)) cs g in
  same_lists g g' /\ g_roots g' = g_roots g ++ cs /\ same_static g g' /\
  (forall j, n_max (g_heap g' j) = n_max (g_heap g j)) /\
  (forall j, parent_of g' j = if existsb (Nat.eqb j) cs then None else parent_of g j) /\
  (forall j, children_of g' j = children_of g j).
Proof.
  induction cs as [|c t IH]; intro g; cbn [fold_left existsb].
  { rewrite app_nil_r. repeat split; auto. }
  set (g1 := on_node (with_roots g (g_roots g ++ [c])) c (set_parent_f None)).
  destruct (IH g1) as ((L1 & L2 & L3) & L4 & S & M & P & C). cbv zeta in *.
  assert (S1 : same_static g g1).
  { intro j. unfold g1. cbn. rewrite hset_eq. destruct (Nat.eqb_spec c j); subst; reflexivity. }
  split; [repeat split; assumption|]. split; [rewrite L4; cbn; now rewrite <- app_assoc|].
  split; [eapply static_trans; eauto|]. split; [|split].
  - intro j. rewrite M. unfold g1. cbn. rewrite hset_eq. destruct (Nat.eqb_spec c j); subst; reflexivity.
  - intro j. rewrite P. unfold g1, parent_of. cbn. rewrite hset_eq, (Nat.eqb_sym j c).
    destruct (Nat.eqb_spec c j); subst; cbn [orb]; [|reflexivity].
    destruct (existsb (Nat.eqb j) t); reflexivity.
  - intro j. rewrite C. unfold g1, children_of. cbn. rewrite hset_eq. destruct (Nat.eqb_spec c j); subst; reflexivity.
Qed.

(** ** Effect of a removal *)
Record eff (g g' : graph) (i : nat) : Prop := {
  e_next : g_next g' = g_next g;
  e_nodes : g_nodes g' = without i (g_nodes g);
  e_keys : g_keys g' = dict_del (g_keys g) (key_of g i);
  e_roots : g_roots g' = match parent_of g i with
                         | None => without i (g_roots g) ++ children_of g i
                         | Some _ => g_roots g end;
  e_static : same_static g g';
  e_max : forall j, parent_of g i <> Some j -> n_max (g_heap g' j) = n_max (g_heap g j);
  e_parent : forall j, parent_of g' j =
    if existsb (Nat.eqb j) (children_of g i) then parent_of g i else parent_of g j;
  e_children : forall j, j <> i -> children_of g' j =
    match parent_of g i with
    | Some p => if Nat.eqb p j then without i (children_of g p ++ children_of g i) else children_of g j
    | None => children_of g j
    end;
  e_self : children_of g i = [] -> children_of g' i = []
}.

Lemma wf_parent_neq g i p : well_formed g -> In i (g_nodes g) -> parent_of g i = Some p -> p <> i.
Proof.
  intros W Hi P ->. destruct (wf_parent g W i i Hi P) as (_ & _ & B & _).
  apply (before_irrefl _ _ (wf_nodup g W) B).
Qed.

Lemma wf_leaf g i : well_formed g -> In i (g_nodes g) -> n_red (g_heap g i) = false -> children_of g i = [].
Proof.
  intros W Hi R. destruct (children_of g i) as [|c t] eqn:E; [reflexivity|exfalso].
  assert (Hc : In c (children_of g i)) by (rewrite E; now left).
  apply (wf_children g W i c Hi) in Hc as (Hc & P). destruct (wf_parent g W c i Hc P) as (_ & R' & _).
  unfold reducible in R'. congruence.
Qed.

Lemma wf_self_child g i : well_formed g -> In i (g_nodes g) -> ~ In i (children_of g i).
Proof.
  intros W Hi H. apply (wf_children g W i i Hi) in H as (_ & P). now apply (wf_parent_neq g i i W Hi).
Qed.

Lemma wf_has_key g i : well_formed g -> In i (g_nodes g) -> dict_has (key_of g i) (g_keys g) = true.
Proof.
  intros W Hi. apply dict_has_in, in_map_iff. exists (key_of g i, i). split; [reflexivity|].
  apply (wf_keys g W). now split.
Qed.

Lemma remove_ok g i : well_formed g -> In i (g_nodes g) -> (reducible g i \/ parent_of g i <> None) ->
  exists g', remove g i = Done g' /\ eff g g' i.
Proof.
  intros W Hi Hr. unfold remove. destruct (n_red (g_heap g i)) eqn:R.
  - unfold remove_reducible. fold (parent_of g i). destruct (parent_of g i) as [p|] eqn:P.
    + destruct (wf_parent g W i p Hi P) as (Hp & Rp & Bp & Ip).
      assert (Npi : p <> i) by (now apply (wf_parent_neq g i p W Hi)).
      assert (Npc : ~ In p (children_of g i)).
      { intro H. apply (wf_children g W i p Hi) in H as (_ & P').
        destruct (wf_parent g W p i Hp P') as (_ & _ & B' & _).
        apply (before_irrefl _ p (wf_nodup g W)). eapply before_trans; eauto using (wf_nodup g W). }
      destruct (set_parents_ok p i (children_of g i) g) as
        (g1 & E & (L1 & L2 & L3) & L4 & S & M & Pa & Cp & Ci & Cj); auto.
      { now apply wf_self_child. } { now apply (wf_children_nodup g W). }
      { intros c Hc. now apply (wf_children g W i c Hi) in Hc. }
      unfold children_of in E. unfold children_of at 1 in Cp. rewrite E. cbn [obind].
      set (g2 := on_node g1 p (fun n => set_children (without i (n_children n)) n)).
      set (mn := fold_left _ _ _).
      set (g3 := on_node g2 p (set_maxv mn)).
      assert (S3 : same_static g g3).
      { eapply static_trans; [exact S|]. eapply static_trans; apply static_on; intro n; reflexivity. }
      unfold delete. fold (key_of g3 i). rewrite (static_key _ _ i S3).
      change (g_keys g3) with (g_keys g1). rewrite L3, (wf_has_key g i W Hi).
      eexists. split; [reflexivity|]. constructor.
      * cbn. exact L1.
      * cbn. now rewrite L2.
      * reflexivity.
      * cbn. rewrite L4, P. reflexivity.
      * exact S3.
      * intros j Hj. rewrite P in Hj. cbn. rewrite hset_other by congruence. cbn. rewrite hset_other by congruence. apply M.
      * intro j. rewrite P, <- Pa. unfold parent_of. cbn. unfold hset.
        destruct (Nat.eqb_spec p j); [subst|reflexivity]. cbn. rewrite Nat.eqb_refl. reflexivity.
      * intros j Hj. rewrite P. unfold children_of at 1. cbn. unfold hset.
        destruct (Nat.eqb_spec p j) as [->|N]; [|now apply Cj; auto].
        cbn. rewrite Nat.eqb_refl. cbn. fold (children_of g1 j). unfold children_of at 1 in Cp.
        unfold children_of at 1. rewrite Cp. reflexivity.
      * intro E0. unfold children_of at 1. cbn. rewrite hset_other by congruence. cbn.
        rewrite hset_other by congruence. fold (children_of g1 i).
        destruct (children_of g1 i) as [|x t] eqn:Ex; [reflexivity|exfalso].
        assert (X : In x (children_of g i) /\ ~ In x (children_of g i)) by (apply Ci; left; reflexivity). tauto.
    + pose proof (root_children_ok (n_children (g_heap g i)) (with_roots g (without i (g_roots g)))) as H.
      cbv zeta in H. cbn [obind].
      set (g1 := fold_left _ _ _) in *. destruct H as ((L1 & L2 & L3) & L4 & S & M & Pa & C).
      assert (S' : same_static g g1) by (intro j; apply (S j)).
      unfold delete. fold (key_of g1 i). rewrite (static_key g g1 i S'), L3. cbn [g_keys with_roots].
      rewrite (wf_has_key g i W Hi). eexists. split; [reflexivity|]. constructor.
      * cbn. exact L1.
      * cbn. now rewrite L2.
      * reflexivity.
      * cbn. rewrite L4, P. reflexivity.
      * exact S'.
      * intros j Hj. cbn. apply M.
      * intro j. rewrite P. apply Pa.
      * intros j Hj. rewrite P. apply C.
      * intro E0. unfold children_of. cbn. specialize (C i). unfold children_of in C. rewrite C. exact E0.
  - unfold remove_irreducible. fold (parent_of g i). destruct Hr as [Hr|Hr]; [unfold reducible in Hr; congruence|].
    destruct (parent_of g i) as [p|] eqn:P; [|congruence].
    destruct (wf_parent g W i p Hi P) as (Hp & Rp & _). unfold reducible in Rp. rewrite Rp. cbn [negb].
    assert (Npi : p <> i) by (now apply (wf_parent_neq g i p W Hi)).
    assert (E0 : children_of g i = []) by (now apply wf_leaf).
    set (g1 := on_node g p _).
    assert (S1 : same_static g g1) by (apply static_on; intro n; reflexivity).
    unfold delete. fold (key_of g1 i). rewrite (static_key g g1 i S1). change (g_keys g1) with (g_keys g).
    rewrite (wf_has_key g i W Hi). eexists. split; [reflexivity|]. constructor.
    + reflexivity.
    + reflexivity.
    + reflexivity.
    + rewrite P. reflexivity.
    + exact S1.
    + intros j Hj. rewrite P in Hj. cbn. rewrite hset_other by congruence. reflexivity.
    + intro j. rewrite E0. cbn [existsb]. unfold parent_of. cbn. unfold hset.
      destruct (Nat.eqb_spec p j); [subst|]; reflexivity.
    + intros j Hj. rewrite P, E0, app_nil_r. unfold children_of at 1. cbn. unfold hset.
      destruct (Nat.eqb_spec p j); [subst|]; reflexivity.
    + intros _. unfold children_of. cbn. rewrite hset_other by congruence. exact E0.
Qed.

Lemma existsb_eqb j l : existsb (Nat.eqb j) l = true <-> In j l.
Proof.
  rewrite existsb_exists. split; [intros (x & H & E); apply Nat.eqb_eq in E; congruence|].
  intro H. exists j. split; [exact H|]. apply Nat.eqb_refl.
Qed.

(** The new parents, in terms of the old ones. *)
Lemma eff_parent g g' i j : well_formed g -> In i (g_nodes g) -> eff g g' i -> In j (g_nodes g) ->
  (parent_of g j = Some i /\ parent_of g' j = parent_of g i) \/
  (parent_of g j <> Some i /\ parent_of g' j = parent_of g j).
Proof.
  intros W Hi E Hj. rewrite (e_parent g g' i E j).
  destruct (existsb (Nat.eqb j) (children_of g i)) eqn:X.
  - left. apply existsb_eqb in X. apply (wf_children g W i j Hi) in X. tauto.
  - right. split; [|reflexivity]. intro P. assert (In j (children_of g i)) by (apply (wf_children g W i j Hi); auto).
    apply existsb_eqb in H. congruence.
Qed.

Lemma wf_key_inj g i j : well_formed g -> In i (g_nodes g) -> In j (g_nodes g) ->
  key_of g i = key_of g j -> i = j.
Proof.
  intros W Hi Hj E.
  assert (A : In (key_of g i, i) (g_keys g)) by (apply (wf_keys g W); auto).
  assert (B : In (key_of g i, j) (g_keys g)) by (apply (wf_keys g W); auto).
  pose proof (wf_keys_nodup g W) as N. clear - A B N.
  induction (g_keys g) as [|[k x] t IH]; [destruct A|]. cbn in N. inversion N; subst.
  destruct A as [A|A], B as [B|B].
  - congruence.
  - injection A as -> ->. exfalso. apply H1. now apply (in_map fst) in B.
  - injection B as -> ->. exfalso. apply H1. now apply (in_map fst) in A.
  - now apply IH.
Qed.

Lemma eff_wf g g' i : well_formed g -> In i (g_nodes g) -> eff g g' i -> well_formed g'.
Proof.
  intros W Hi E.
  assert (IN : forall j, In j (g_nodes g') <-> In j (g_nodes g) /\ j <> i).
  { intro j. rewrite (e_nodes g g' i E). apply in_without. }
  assert (FIL : forall a b, before (g_nodes g) a b -> a <> i -> b <> i -> before (g_nodes g') a b).
  { intros a b B Na Nb. rewrite (e_nodes g g' i E). apply before_filter; [exact B| |];
      apply negb_true_iff, Nat.eqb_neq; assumption. }
  constructor.
  - rewrite (e_nodes g g' i E). apply without_nodup, (wf_nodup g W).
  - intros j Hj. rewrite (e_next g g' i E). apply (wf_live g W). now apply IN.
  - rewrite (e_keys g g' i E). apply nodup_map_filter, (wf_keys_nodup g W).
  - intros k j. rewrite (e_keys g g' i E), dict_del_in, IN, (static_key g g' j (e_static g g' i E)).
    cbn [fst]. rewrite (wf_keys g W). split.
    + intros ((Hj & Ek) & N). repeat split; auto. intros ->. congruence.
    + intros ((Hj & N) & Ek). repeat split; auto. intro Eq. apply N. apply (wf_key_inj g); auto. congruence.
  - intros j p Hj P. apply IN in Hj as (Hj & Nj). unfold reducible.
    rewrite (static_red g g' p (e_static g g' i E)), !(static_basins g g' _ (e_static g g' i E)).
    destruct (eff_parent g g' i j W Hi E Hj) as [(A & B)|(A & B)]; rewrite B in P.
    + destruct (wf_parent g W i p Hi P) as (Hp & Rp & Bp & Ip).
      destruct (wf_parent g W j i Hj A) as (_ & Ri & Bi & Ii).
      assert (Np : p <> i) by (now apply (wf_parent_neq g i p W Hi)).
      repeat split; auto; [now apply IN| |].
      * apply FIL; auto. eapply before_trans; eauto using (wf_nodup g W).
      * intros b Hb. apply Ip, Ii, Hb.
    + destruct (wf_parent g W j p Hj P) as (Hp & Rp & Bp & Ip).
      assert (Np : p <> i) by congruence. repeat split; auto. now apply IN.
  - intros p Hp. apply IN in Hp as (Hp & Np). rewrite (e_children g g' i E p Np).
    destruct (parent_of g i) as [q|] eqn:P; [|now apply (wf_children_nodup g W)].
    destruct (Nat.eqb_spec q p) as [->|N]; [|now apply (wf_children_nodup g W)].
    apply without_nodup. apply NoDup_app_iff_local; auto using (wf_children_nodup g W).
    intros x A B. apply (wf_children g W p x Hp) in A as (_ & A). apply (wf_children g W i x Hi) in B as (_ & B). congruence.
  - intros p c Hp. apply IN in Hp as (Hp & Np). rewrite IN.
    rewrite (e_children g g' i E p Np).
    destruct (parent_of g i) as [q|] eqn:P.
    + destruct (Nat.eqb_spec q p) as [->|N].
      * rewrite in_without, in_app_iff, (wf_children g W p c Hp), (wf_children g W i c Hi). split.
        -- intros ([(Hc & Pc)|(Hc & Pc)] & Nc); (split; [now split|]);
             destruct (eff_parent g g' i c W Hi E Hc) as [(A & B)|(A & B)]; congruence.
        -- intros ((Hc & Nc) & Pc). split; [|exact Nc].
           destruct (eff_parent g g' i c W Hi E Hc) as [(A & B)|(A & B)]; [right|left]; (split; congruence).
      * rewrite (wf_children g W p c Hp). split.
        -- intros (Hc & Pc). split; [split; [exact Hc|]; intros ->; congruence|].
           destruct (eff_parent g g' i c W Hi E Hc) as [(A & B)|(A & B)]; congruence.
        -- intros ((Hc & Nc) & Pc). split; [exact Hc|].
           destruct (eff_parent g g' i c W Hi E Hc) as [(A & B)|(A & B)]; congruence.
    + rewrite (wf_children g W p c Hp). split.
      * intros (Hc & Pc). split; [split; [exact Hc|]; intros ->; congruence|].
        destruct (eff_parent g g' i c W Hi E Hc) as [(A & B)|(A & B)]; congruence.
      * intros ((Hc & Nc) & Pc). split; [exact Hc|].
        destruct (eff_parent g g' i c W Hi E Hc) as [(A & B)|(A & B)]; congruence.
  - rewrite (e_roots g g' i E). destruct (parent_of g i) as [q|] eqn:P; [apply (wf_roots_nodup g W)|].
    apply NoDup_app_iff_local.
    + apply without_nodup, (wf_roots_nodup g W).
    + now apply (wf_children_nodup g W).
    + intros x A B. apply in_without in A as (A & _). apply (wf_roots g W) in A as (_ & A).
      apply (wf_children g W i x Hi) in B as (_ & B). congruence.
  - intro j. rewrite (e_roots g g' i E), IN. destruct (parent_of g i) as [q|] eqn:P.
    + rewrite (wf_roots g W). split.
      * intros (Hj & Pj). split; [split; [exact Hj|]; intros ->; congruence|].
        destruct (eff_parent g g' i j W Hi E Hj) as [(A & B)|(A & B)]; congruence.
      * intros ((Hj & Nj) & Pj). split; [exact Hj|].
        destruct (eff_parent g g' i j W Hi E Hj) as [(A & B)|(A & B)]; congruence.
    + rewrite in_app_iff, in_without, (wf_roots g W), (wf_children g W i j Hi). split.
      * intros [((Hj & Pj) & Nj)|(Hj & Pj)].
        -- split; [now split|]. destruct (eff_parent g g' i j W Hi E Hj) as [(A & B)|(A & B)]; congruence.
        -- split; [split; [exact Hj|]; intros ->; congruence|].
           destruct (eff_parent g g' i j W Hi E Hj) as [(A & B)|(A & B)]; congruence.
      * intros ((Hj & Nj) & Pj).
        destruct (eff_parent g g' i j W Hi E Hj) as [(A & B)|(A & B)]; [right|left]; repeat split; auto; congruence.
  - intros a b x Ha Hb Nab Eab. apply IN in Ha as (Ha & Na). apply IN in Hb as (Hb & Nb).
    rewrite !(static_basins g g' _ (e_static g g' i E)).
    assert (SUB : forall c, In c (g_nodes g) -> parent_of g c = Some i -> incl (basins_of g c) (basins_of g i)).
    { intros c Hc Pc. now destruct (wf_parent g W c i Hc Pc) as (_ & _ & _ & I). }
    destruct (eff_parent g g' i a W Hi E Ha) as [(A1 & B1)|(A1 & B1)],
             (eff_parent g g' i b W Hi E Hb) as [(A2 & B2)|(A2 & B2)]; rewrite B1, B2 in Eab; intros Xa Xb.
    + apply (wf_disjoint g W a b x Ha Hb Nab); auto. congruence.
    + apply (wf_disjoint g W i b x Hi Hb); auto. now apply (SUB a).
    + apply (wf_disjoint g W a i x Ha Hi); auto. now apply (SUB b).
    + apply (wf_disjoint g W a b x Ha Hb Nab); auto.
Qed.

Lemma eff_taken_out g g' i : well_formed g -> In i (g_nodes g) -> eff g g' i -> taken_out g g' i.
Proof.
  intros W Hi E. constructor; intros.
  - apply (e_nodes g g' i E).
  - apply static_key, (e_static g g' i E).
  - apply static_red, (e_static g g' i E).
  - apply static_basins, (e_static g g' i E).
  - apply static_min, (e_static g g' i E).
  - rewrite (e_nodes g g' i E) in H. apply in_without in H as (Hj & Nj).
    destruct (eff_parent g g' i j W Hi E Hj) as [(A & ->)|(A & ->)].
    + rewrite A, Nat.eqb_refl. reflexivity.
    + destruct (parent_of g j) as [p|]; [|reflexivity].
      destruct (Nat.eqb_spec p i); [congruence|reflexivity].
Qed.
