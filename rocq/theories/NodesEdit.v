(** Adding nodes, collapsing a subtree, and whole passes over the graph. *)
From Coq Require Import QArith Permutation.
From Verif Require Import Base RootsModel UnionModel LabelsModel NodesModel NodesSpec NodesProofs.
Local Open Scope Z_scope.

Lemma filter_true_id {A} (l : list A) : filter (fun _ => true) l = l.
Proof. induction l as [|x t IH]; simpl; [reflexivity|]. now rewrite IH. Qed.

Lemma filter_filter_and {A} (p q : A -> bool) l : filter p (filter q l) = filter (fun x => p x && q x)%bool l.
Proof.
  induction l as [|x t IH]; simpl; [reflexivity|]. destruct (q x); simpl.
  - destruct (p x); simpl; now rewrite IH.
  - rewrite andb_false_r. exact IH.
Qed.

(** ** Adding a node *)
Lemma new_key_fresh l : forall k x, In x (k :: l) -> x <= fold_left Z.max l k.
Proof.
  induction l as [|y t IH]; intros k x H; cbn [fold_left].
  - destruct H as [->|[]]. lia.
  - destruct H as [->|[->|H]].
    + specialize (IH (Z.max x y) (Z.max x y) (or_introl eq_refl)). lia.
    + specialize (IH (Z.max k x) (Z.max k x) (or_introl eq_refl)). lia.
    + apply IH. now right.
Qed.

Lemma new_key_unused g : well_formed g -> ~ In (new_key g) (map fst (g_keys g)).
Proof.
  intros W H. unfold new_key in H. destruct (g_nodes g) as [|i t] eqn:E.
  - apply in_map_iff in H as ((k, i) & _ & H). apply (wf_keys g W) in H as (H & _). rewrite E in H. destruct H.
  - destruct (map fst (g_keys g)) as [|k l] eqn:K; [destruct H|].
    pose proof (new_key_fresh l k _ H). lia.
Qed.

Lemma dict_set_new d k v : ~ In k (map fst d) -> dict_set d k v = d ++ [(k, v)].
Proof.
  intro H. unfold dict_set. destruct (dict_has k d) eqn:E; [|reflexivity].
  apply dict_has_in in E. contradiction.
Qed.

Lemma wf_fresh g : well_formed g -> ~ In (g_next g) (g_nodes g).
Proof. intros W H. apply (wf_live g W) in H. lia. Qed.

Record added (g g' : graph) (n : nat) (red : bool) (basins : list nat) (inf : bool) (mn mx : Q)
    (k : Z) (parent : option nat) : Prop := {
  a_id : n = g_next g;
  a_nodes : g_nodes g' = g_nodes g ++ [n];
  a_node : g_heap g' n = Node k red basins inf mn mx None parent [];
  a_other : forall j, j <> n -> static (g_heap g' j) = static (g_heap g j) /\
      parent_of g' j = parent_of g j /\ n_max (g_heap g' j) = n_max (g_heap g j) /\
      children_of g' j = (match parent with
                          | Some p => if Nat.eqb p j then children_of g j ++ [n] else children_of g j
                          | None => children_of g j end);
  a_roots : g_roots g' = (match parent with None => g_roots g ++ [n] | Some _ => g_roots g end);
  a_keys : g_keys g' = g_keys g ++ [(k, n)];
  a_next : g_next g' = S n
}.

Definition admissible (g : graph) (basins : list nat) (parent : option nat) : Prop :=
  (forall p, parent = Some p -> In p (g_nodes g) /\ reducible g p /\ incl basins (basins_of g p)) /\
  (forall j b, In j (g_nodes g) -> parent_of g j = parent -> In b basins -> ~ In b (basins_of g j)).

Lemma add_effect g red basins inf mn mx key parent :
  well_formed g -> admissible g basins parent ->
  (forall k, key = Some k -> ~ In k (map fst (g_keys g))) ->
  exists g' n k, add_node g red basins inf mn mx key parent = Done (g', n) /\
    (forall k', key = Some k' -> k = k') /\ ~ In k (map fst (g_keys g)) /\
    added g g' n red basins inf mn mx k parent.
Proof.
  intros W (A1 & A2) K.
  set (k := match key with Some k => k | None => new_key g end).
  assert (Nk : ~ In k (map fst (g_keys g))).
  { unfold k. destruct key; [now apply K|now apply new_key_unused]. }
  pose proof (wf_fresh g W) as F. unfold add_node. destruct parent as [p|].
  - destruct (A1 p eq_refl) as (Hp & Rp & _). unfold reducible in Rp. rewrite Rp. cbn [obind].
    assert (Np : p <> g_next g) by (intros ->; contradiction).
    eexists _, _, k. split; [reflexivity|]. split; [unfold k; intros k' ->; reflexivity|]. split; [exact Nk|].
    assert (K' : match key with Some k0 => k0 | None => new_key (on_node g p
       (fun n => set_children (n_children n ++ [g_next g]) n)) end = k).
    { unfold k. destruct key; reflexivity. }
    rewrite K'. constructor.
    + reflexivity.
    + reflexivity.
    + cbn. apply hset_same.
    + intros j Hj. unfold parent_of, children_of. cbn. rewrite !hset_eq.
      destruct (Nat.eqb_spec (g_next g) j); [congruence|].
      destruct (Nat.eqb_spec p j); subst; repeat split; reflexivity.
    + reflexivity.
    + cbn. now apply dict_set_new.
    + reflexivity.
  - cbn [obind]. eexists _, _, k. split; [reflexivity|]. split; [unfold k; intros k' ->; reflexivity|]. split; [exact Nk|].
    assert (K' : match key with Some k0 => k0 | None => new_key (with_roots g (g_roots g ++ [g_next g])) end = k).
    { unfold k. destruct key; reflexivity. }
    rewrite K'. constructor.
    + reflexivity.
    + reflexivity.
    + cbn. apply hset_same.
    + intros j Hj. unfold parent_of, children_of. cbn. rewrite !hset_eq.
      destruct (Nat.eqb_spec (g_next g) j); [congruence|]. repeat split; reflexivity.
    + reflexivity.
    + cbn. now apply dict_set_new.
    + reflexivity.
Qed.

Lemma static_fields a b : static a = static b -> n_key a = n_key b /\ n_red a = n_red b /\
  n_basins a = n_basins b /\ n_infinite a = n_infinite b /\ n_min a = n_min b.
Proof. unfold static. intro H. repeat split; congruence. Qed.

Lemma added_wf g g' n red basins inf mn mx k parent : well_formed g -> admissible g basins parent ->
  ~ In k (map fst (g_keys g)) -> added g g' n red basins inf mn mx k parent -> well_formed g'.
Proof.
  intros W (A1 & A2) Nk A.
  pose proof (wf_fresh g W) as F. rewrite <- (a_id _ _ _ _ _ _ _ _ _ _ A) in F.
  assert (IN : forall j, In j (g_nodes g') <-> In j (g_nodes g) \/ j = n).
  { intro j. rewrite (a_nodes _ _ _ _ _ _ _ _ _ _ A), in_app_iff. simpl. intuition congruence. }
  assert (NE : forall j, In j (g_nodes g) -> j <> n) by (intros j Hj ->; contradiction).
  assert (PAR : forall j, In j (g_nodes g) -> parent_of g' j = parent_of g j).
  { intros j Hj. now destruct (a_other _ _ _ _ _ _ _ _ _ _ A j (NE j Hj)) as (_ & P & _). }
  assert (BAS : forall j, In j (g_nodes g) -> basins_of g' j = basins_of g j).
  { intros j Hj. destruct (a_other _ _ _ _ _ _ _ _ _ _ A j (NE j Hj)) as (S & _).
    apply static_fields in S. unfold basins_of. tauto. }
  assert (RED : forall j, In j (g_nodes g) -> n_red (g_heap g' j) = n_red (g_heap g j)).
  { intros j Hj. destruct (a_other _ _ _ _ _ _ _ _ _ _ A j (NE j Hj)) as (S & _).
    apply static_fields in S. tauto. }
  assert (KEY : forall j, In j (g_nodes g) -> key_of g' j = key_of g j).
  { intros j Hj. destruct (a_other _ _ _ _ _ _ _ _ _ _ A j (NE j Hj)) as (S & _).
    apply static_fields in S. unfold key_of. tauto. }
  assert (CHI : forall j, In j (g_nodes g) -> children_of g' j =
     match parent with Some p => if Nat.eqb p j then children_of g j ++ [n] else children_of g j
     | None => children_of g j end).
  { intros j Hj. now destruct (a_other _ _ _ _ _ _ _ _ _ _ A j (NE j Hj)) as (_ & _ & _ & C). }
  assert (Pn : parent_of g' n = parent) by (unfold parent_of; now rewrite (a_node _ _ _ _ _ _ _ _ _ _ A)).
  assert (Bn : basins_of g' n = basins) by (unfold basins_of; now rewrite (a_node _ _ _ _ _ _ _ _ _ _ A)).
  assert (Kn : key_of g' n = k) by (unfold key_of; now rewrite (a_node _ _ _ _ _ _ _ _ _ _ A)).
  assert (Cn : children_of g' n = []) by (unfold children_of; now rewrite (a_node _ _ _ _ _ _ _ _ _ _ A)).
  constructor.
  - rewrite (a_nodes _ _ _ _ _ _ _ _ _ _ A). apply NoDup_app_iff_local; [apply (wf_nodup g W)| |].
    + constructor; [intros []|constructor].
    + intros x H [->|[]]. contradiction.
  - intros j Hj. rewrite (a_next _ _ _ _ _ _ _ _ _ _ A). apply IN in Hj as [Hj| ->]; [|lia].
    apply (wf_live g W) in Hj. rewrite (a_id _ _ _ _ _ _ _ _ _ _ A). lia.
  - rewrite (a_keys _ _ _ _ _ _ _ _ _ _ A), map_app. apply NoDup_app_iff_local; [apply (wf_keys_nodup g W)| |].
    + constructor; [intros []|constructor].
    + intros x H [E|[]]. cbn in E. subst x. contradiction.
  - intros k' j. rewrite (a_keys _ _ _ _ _ _ _ _ _ _ A), in_app_iff, IN, (wf_keys g W). simpl. split.
    + intros [(Hj & E)|[E|[]]].
      * split; [now left|]. now rewrite KEY.
      * injection E as <- <-. split; [now right|exact Kn].
    + intros ([Hj| ->] & E).
      * left. split; [exact Hj|]. now rewrite <- KEY.
      * right. left. congruence.
  - intros j p Hj P. apply IN in Hj as [Hj| ->].
    + rewrite PAR in P by exact Hj. destruct (wf_parent g W j p Hj P) as (Hp & Rp & Bp & Ip).
      unfold reducible. rewrite RED, !BAS by assumption. repeat split; auto; [apply IN; now left|].
      rewrite (a_nodes _ _ _ _ _ _ _ _ _ _ A). now apply before_app.
    + rewrite Pn in P. destruct (A1 p P) as (Hp & Rp & Ip). unfold reducible.
      rewrite RED, Bn, BAS by assumption. repeat split; auto; [apply IN; now left|].
      exists (g_nodes g), []. split; [apply (a_nodes _ _ _ _ _ _ _ _ _ _ A)|exact Hp].
  - intros p Hp. apply IN in Hp as [Hp| ->]; [|rewrite Cn; constructor].
    rewrite CHI by exact Hp. destruct parent as [q|]; [|now apply (wf_children_nodup g W)].
    destruct (Nat.eqb q p); [|now apply (wf_children_nodup g W)].
    apply NoDup_app_iff_local; [now apply (wf_children_nodup g W)| |].
    + constructor; [intros []|constructor].
    + intros x H [->|[]]. apply (wf_children g W p x Hp) in H as (H & _). contradiction.
  - intros p c Hp. rewrite IN. apply IN in Hp as [Hp| ->].
    + rewrite CHI by exact Hp. destruct parent as [q|] eqn:EP; [destruct (Nat.eqb_spec q p) as [->|N]|].
      * rewrite in_app_iff, (wf_children g W p c Hp). simpl. split.
        -- intros [(Hc & P)|[<-|[]]]; [rewrite PAR by exact Hc; tauto|tauto].
        -- intros ([Hc| ->] & P); [rewrite PAR in P by exact Hc; tauto|tauto].
      * rewrite (wf_children g W p c Hp). split.
        -- intros (Hc & P). rewrite PAR by exact Hc. tauto.
        -- intros ([Hc| ->] & P); [rewrite PAR in P by exact Hc; tauto|congruence].
      * rewrite (wf_children g W p c Hp). split.
        -- intros (Hc & P). rewrite PAR by exact Hc. tauto.
        -- intros ([Hc| ->] & P); [rewrite PAR in P by exact Hc; tauto|congruence].
    + rewrite Cn. split; [intros []|]. intros ([Hc| ->] & P).
      * rewrite PAR in P by exact Hc. destruct (wf_parent g W c n Hc P) as (H & _). contradiction.
      * rewrite Pn in P. destruct (A1 n P) as (H & _). contradiction.
  - rewrite (a_roots _ _ _ _ _ _ _ _ _ _ A). destruct parent; [apply (wf_roots_nodup g W)|].
    apply NoDup_app_iff_local; [apply (wf_roots_nodup g W)| |].
    + constructor; [intros []|constructor].
    + intros x H [->|[]]. apply (wf_roots g W) in H as (H & _). contradiction.
  - intro j. rewrite (a_roots _ _ _ _ _ _ _ _ _ _ A), IN. destruct parent as [q|].
    + rewrite (wf_roots g W). split.
      * intros (Hj & P). rewrite PAR by exact Hj. tauto.
      * intros ([Hj| ->] & P); [rewrite PAR in P by exact Hj; tauto|congruence].
    + rewrite in_app_iff, (wf_roots g W). simpl. split.
      * intros [(Hj & P)|[<-|[]]]; [rewrite PAR by exact Hj; tauto|tauto].
      * intros ([Hj| ->] & P); [rewrite PAR in P by exact Hj; tauto|tauto].
  - intros a b x Ha Hb N E. apply IN in Ha. apply IN in Hb.
    destruct Ha as [Ha| ->], Hb as [Hb| ->].
    + rewrite !PAR in E by assumption. rewrite !BAS by assumption. now apply (wf_disjoint g W).
    + rewrite PAR, Pn in E by assumption. rewrite BAS, Bn by assumption. intros X Y. now apply (A2 a x Ha E Y).
    + rewrite Pn, (PAR b Hb) in E. rewrite Bn, (BAS b Hb). intros X Y. symmetry in E. now apply (A2 b x Hb E X).
    + congruence.
Qed.

(** ** Descendants, level by level *)
Inductive dist (g : graph) (i : nat) : nat -> nat -> Prop :=
| dist_child x : parent_of g x = Some i -> dist g i x 1
| dist_step x y k : parent_of g x = Some y -> dist g i y k -> dist g i x (S k).

Lemma dist_ancestor g i x : ancestor g i x <-> exists k, dist g i x k.
Proof.
  split.
  - induction 1 as [x P|x y P _ (k & IH)]; [exists 1%nat; now constructor|exists (S k); econstructor; eauto].
  - intros (k & H). induction H; [now constructor|econstructor 2; eauto].
Qed.

Lemma dist_pos g i x k : well_formed g -> In x (g_nodes g) -> dist g i x k ->
  In i (g_nodes g) /\ (pos (g_nodes g) i + k <= pos (g_nodes g) x)%nat.
Proof.
  intros W Hx D. induction D as [x P|x y k P D IH].
  - destruct (wf_parent g W x i Hx P) as (Hi & _ & B & _). split; [exact Hi|].
    pose proof (before_pos _ _ _ (wf_nodup g W) B). lia.
  - destruct (wf_parent g W x y Hx P) as (Hy & _ & B & _). destruct (IH Hy) as (Hi & L). split; [exact Hi|].
    pose proof (before_pos _ _ _ (wf_nodup g W) B). lia.
Qed.

Lemma dist_fun g i x k : well_formed g -> In x (g_nodes g) -> dist g i x k -> forall k', dist g i x k' -> k = k'.
Proof.
  intros W.
  assert (NC : forall k, In i (g_nodes g) -> ~ dist g i i k).
  { intros k0 Hi D. pose proof (dist_pos g i i k0 W Hi D). assert (k0 <> 0)%nat by (inversion D; lia). lia. }
  intros Hx D. induction D as [x P|x y k P D IH]; intros k' D'.
  - inversion D' as [a Pa|a b k0 Pa Da]; subst; [reflexivity|].
    assert (b = i) by congruence. subst b. destruct (wf_parent g W x i Hx P) as (Hi & _).
    exfalso. now apply (NC k0 Hi).
  - inversion D' as [a Pa|a b k0 Pa Da]; subst.
    + assert (y = i) by congruence. subst y. destruct (wf_parent g W x i Hx P) as (Hi & _).
      exfalso. now apply (NC k Hi).
    + assert (b = y) by congruence. subst b. f_equal. apply IH; [|assumption].
      now destruct (wf_parent g W x y Hx P) as (Hy & _).
Qed.

Lemma next_level_in g l x : well_formed g -> (forall y, In y l -> In y (g_nodes g)) ->
  In x (next_level g l) <-> In x (g_nodes g) /\ exists y, In y l /\ parent_of g x = Some y.
Proof.
  intros W L. unfold next_level. rewrite in_flat_map. split.
  - intros (y & Hy & H). destruct (n_red (g_heap g y)); [|destruct H].
    apply (wf_children g W y x (L y Hy)) in H as (Hx & P). split; [exact Hx|]. now exists y.
  - intros (Hx & y & Hy & P). exists y. split; [exact Hy|].
    destruct (wf_parent g W x y Hx P) as (_ & R & _). unfold reducible in R. rewrite R.
    apply (wf_children g W y x (L y Hy)). now split.
Qed.

Lemma next_level_nodup g l : well_formed g -> (forall y, In y l -> In y (g_nodes g)) -> NoDup l ->
  NoDup (next_level g l).
Proof.
  intros W L N. induction N as [|y t Ny N IH]; [constructor|].
  change (next_level g (y :: t)) with
    ((if n_red (g_heap g y) then n_children (g_heap g y) else []) ++ next_level g t).
  assert (Hy : In y (g_nodes g)) by (apply L; now left).
  assert (Lt : forall z, In z t -> In z (g_nodes g)) by (intros z Hz; apply L; now right).
  apply NoDup_app_iff_local.
  - destruct (n_red (g_heap g y)); [|constructor]. now apply (wf_children_nodup g W).
  - now apply IH.
  - intros x A B. apply (next_level_in g t x W Lt) in B as (_ & z & Hz & P).
    destruct (n_red (g_heap g y)); [|destruct A]. apply (wf_children g W y x Hy) in A as (_ & P'). congruence.
Qed.

(** What the level by level loop returns. *)
Lemma deep_loop_spec g i fuel : forall cur k l, well_formed g ->
  (forall x, In x cur -> In x (g_nodes g) /\ dist g i x k) -> NoDup cur ->
  deep_loop g fuel cur = Done l ->
  NoDup l /\
  (forall x, In x l -> In x (g_nodes g) /\ exists k', (k <= k')%nat /\ dist g i x k') /\
  (forall x, In x l -> In x cur \/ exists y, parent_of g x = Some y /\ before l y x) /\
  incl cur l /\
  (forall x y, In x (g_nodes g) -> parent_of g x = Some y -> In y l -> In x l).
Proof.
  induction fuel as [|f IH]; intros cur k l W HC N E; [discriminate|]. cbn [deep_loop] in E.
  assert (LC : forall y, In y cur -> In y (g_nodes g)) by (intros y Hy; now apply HC).
  destruct (next_level g cur) as [|z t] eqn:EN.
  - injection E as <-. split; [exact N|]. split; [|split; [|split]].
    + intros x Hx. destruct (HC x Hx). split; [assumption|]. exists k. split; [lia|assumption].
    + intros x Hx. now left.
    + apply incl_refl.
    + intros x y Hx P Hy. exfalso.
      assert (X : In x (next_level g cur)) by (apply next_level_in; auto; split; [exact Hx|]; now exists y).
      rewrite EN in X. destruct X.
  - set (nxt := next_level g cur) in *.
    assert (E' : obind (deep_loop g f nxt) (fun rest => Done (cur ++ rest)) = Done l) by (rewrite EN; exact E).
    destruct (deep_loop g f nxt) as [rest| |] eqn:ER; try discriminate. cbn [obind] in E'. injection E' as <-.
    destruct (IH nxt (S k) rest W) as (R1 & R2 & R3 & R4 & R5).
    { intros x Hx. apply (next_level_in g cur x W LC) in Hx as (Hx & y & Hy & P). split; [exact Hx|].
      econstructor; [exact P|]. now apply HC. }
    { now apply next_level_nodup. } { exact ER. }
    split; [|split; [|split; [|split]]].
    + apply NoDup_app_iff_local; auto. intros x A B. destruct (HC x A) as (Hx & D).
      destruct (R2 x B) as (_ & k' & L & D'). pose proof (dist_fun g i x k W Hx D k' D'). lia.
    + intros x Hx. apply in_app_iff in Hx as [Hx|Hx].
      * destruct (HC x Hx). split; [assumption|]. exists k. split; [lia|assumption].
      * destruct (R2 x Hx) as (Hx' & k' & L & D). split; [exact Hx'|]. exists k'. split; [lia|exact D].
    + intros x Hx. apply in_app_iff in Hx as [Hx|Hx]; [now left|right].
      destruct (R3 x Hx) as [Hx'|(y & P & B)].
      * apply (next_level_in g cur x W LC) in Hx' as (_ & y & Hy & P). exists y. split; [exact P|].
        apply in_split in Hx as (r1 & r2 & ->). exists (cur ++ r1), r2. rewrite <- app_assoc. split; [reflexivity|].
        apply in_or_app. now left.
      * exists y. split; [exact P|]. destruct B as (r1 & r2 & -> & B). exists (cur ++ r1), r2.
        rewrite <- app_assoc. split; [reflexivity|]. apply in_or_app. now right.
    + intros x Hx. apply in_or_app. now left.
    + intros x y Hx P Hy. apply in_app_iff in Hy as [Hy|Hy]; apply in_or_app; right.
      * apply R4. apply next_level_in; auto. split; [exact Hx|]. now exists y.
      * eapply R5; eauto.
Qed.

Lemma deep_loop_done g i fuel : forall cur k, well_formed g ->
  (forall x, In x cur -> In x (g_nodes g) /\ dist g i x k) -> (1 <= fuel)%nat -> (length (g_nodes g) < k + fuel)%nat ->
  exists l, deep_loop g fuel cur = Done l.
Proof.
  induction fuel as [|f IH]; intros cur k W HC F1 F2; [lia|]. cbn [deep_loop].
  assert (LC : forall y, In y cur -> In y (g_nodes g)) by (intros y Hy; now apply HC).
  destruct (next_level g cur) as [|z t] eqn:EN; [now exists cur|].
  assert (HN : forall x, In x (z :: t) -> In x (g_nodes g) /\ dist g i x (S k)).
  { intros x Hx. rewrite <- EN in Hx. apply (next_level_in g cur x W LC) in Hx as (Hx & y & Hy & P).
    split; [exact Hx|]. econstructor; [exact P|]. now apply HC. }
  destruct (HN z (or_introl eq_refl)) as (Hz & D).
  pose proof (dist_pos g i z (S k) W Hz D) as (_ & L). pose proof (pos_lt _ _ Hz).
  destruct (IH (z :: t) (S k) W HN) as (l & ->); [lia|lia|]. cbn [obind]. now eexists.
Qed.

Lemma deep_children_spec g i fuel : well_formed g -> In i (g_nodes g) -> (length (g_nodes g) <= fuel)%nat ->
  exists l, deep_children fuel g i = Done l /\ NoDup l /\
    (forall x, In x l <-> In x (g_nodes g) /\ ancestor g i x) /\
    (forall x y, In x l -> parent_of g x = Some y -> y = i \/ before l y x).
Proof.
  intros W Hi F. unfold deep_children.
  assert (HC : forall x, In x (children_of g i) -> In x (g_nodes g) /\ dist g i x 1).
  { intros x Hx. apply (wf_children g W i x Hi) in Hx as (Hx & P). split; [exact Hx|]. now constructor. }
  assert (N0 : (1 <= length (g_nodes g))%nat) by (destruct (g_nodes g); [destruct Hi|cbn; lia]).
  destruct (deep_loop_done g i fuel (children_of g i) 1 W HC) as (l & E); [lia|lia|].
  destruct (deep_loop_spec g i fuel (children_of g i) 1 l W HC (wf_children_nodup g W i Hi) E)
    as (D1 & D2 & D3 & D4 & D5).
  exists l. split; [exact E|]. split; [exact D1|]. split.
  - intro x. split.
    + intro Hx. destruct (D2 x Hx) as (Hx' & k & _ & D). split; [exact Hx'|]. apply dist_ancestor. now exists k.
    + intros (Hx & A). induction A as [x P|x y P A IH].
      * apply D4. apply (wf_children g W i x Hi). now split.
      * destruct (wf_parent g W x y Hx P) as (Hy & _). apply (D5 x y Hx P). now apply IH.
  - intros x y Hx P. destruct (D3 x Hx) as [Hc|(y' & P' & B)].
    + apply (wf_children g W i x Hi) in Hc as (_ & P'). left. congruence.
    + right. congruence.
Qed.

(** ** Removing a list of nodes, children first *)
Lemma remove_all_ok i r : forall g, well_formed g -> NoDup r -> ~ In i r ->
  (forall x, In x r -> In x (g_nodes g) /\ parent_of g x <> None) ->
  (forall r1 x r2, r = r1 ++ x :: r2 -> incl (children_of g x) r1) ->
  exists g', remove_all g r = Done g' /\ well_formed g' /\
    g_next g' = g_next g /\ g_roots g' = g_roots g /\
    (forall j, In j (g_nodes g') <-> In j (g_nodes g) /\ ~ In j r) /\
    g_nodes g' = filter (fun j => negb (existsb (Nat.eqb j) r)) (g_nodes g) /\
    same_static g g' /\ (forall j, parent_of g' j = parent_of g j) /\
    (forall j, In j r -> children_of g' j = [] /\ ~ In (key_of g j) (map fst (g_keys g'))) /\
    incl (g_keys g') (g_keys g) /\
    (forall j, ~ In j (g_nodes g) -> children_of g' j = children_of g j).
Proof.
  induction r as [|x t IH]; intros g W N Ni HX HC.
  { exists g. cbn [remove_all]. split; [reflexivity|]. split; [exact W|]. split; [reflexivity|].
    split; [reflexivity|]. split; [intro j; simpl; tauto|]. split; [symmetry; apply filter_true_id|].
    split; [intro j; reflexivity|]. split; [reflexivity|]. split; [intros j []|].
    split; [apply incl_refl|]. reflexivity. }
  inversion N; subst. cbn [remove_all].
  destruct (HX x (or_introl eq_refl)) as (Hx & Px).
  assert (Cx : children_of g x = []).
  { specialize (HC [] x t eq_refl). destruct (children_of g x) as [|c l]; [reflexivity|].
    destruct (HC c (or_introl eq_refl)). }
  destruct (remove_ok g x W Hx) as (g1 & E & EF); [now right|].
  rewrite E. cbn [obind]. pose proof (eff_wf g g1 x W Hx EF) as W1.
  assert (P1 : forall j, parent_of g1 j = parent_of g j).
  { intro j. rewrite (e_parent g g1 x EF j), Cx. reflexivity. }
  assert (N1 : forall j, In j (g_nodes g1) <-> In j (g_nodes g) /\ j <> x).
  { intro j. rewrite (e_nodes g g1 x EF). apply in_without. }
  destruct (parent_of g x) as [p|] eqn:PX; [|congruence].
  assert (C1 : forall j, j <> x -> incl (children_of g1 j) (children_of g j)).
  { intros j Hj. rewrite (e_children g g1 x EF j Hj), PX, Cx, app_nil_r.
    destruct (Nat.eqb_spec p j); [subst|apply incl_refl]. intros c Hc. now apply in_without in Hc. }
  assert (PN : In p (g_nodes g)) by (now destruct (wf_parent g W x p Hx PX)).
  destruct (IH g1 W1) as (g' & E' & W' & X' & R' & NN & NF & S' & P' & CK & KK & CO).
  { assumption. } { intro; apply Ni; now right. }
  { intros y Hy. rewrite N1, P1. destruct (HX y (or_intror Hy)) as (A & B). repeat split; auto.
    intros ->. contradiction. }
  { intros r1 y r2 ->. intros c Hc.
    assert (Hy : y <> x) by (intros ->; apply H1; apply in_or_app; right; now left).
    assert (Hy' : In y (g_nodes g)) by (apply HX; right; apply in_or_app; right; now left).
    assert (Hc1 : c <> x).
    { intros ->. apply (wf_children g1 W1 y x) in Hc as (Hc & _); [|apply N1; now split].
      apply N1 in Hc. tauto. }
    apply (C1 y Hy) in Hc. apply (HC (x :: r1) y r2 eq_refl) in Hc. destruct Hc as [->|Hc]; [contradiction|exact Hc]. }
  exists g'. split; [exact E'|]. split; [exact W'|].
  split; [rewrite X'; apply (e_next g g1 x EF)|].
  split; [rewrite R', (e_roots g g1 x EF), PX; reflexivity|].
  split; [|split; [|split; [|split; [|split; [|split]]]]].
  - intro j. rewrite NN, N1. simpl. intuition congruence.
  - rewrite NF, (e_nodes g g1 x EF). unfold without. rewrite filter_filter_and. apply filter_ext. intro j.
    cbn [existsb]. rewrite negb_orb. apply andb_comm.
  - eapply static_trans; [apply (e_static g g1 x EF)|exact S'].
  - intro j. now rewrite P', P1.
  - intros j [<-|Hj].
    + split.
      * rewrite CO by (rewrite N1; tauto). now apply (e_self g g1 x EF).
      * intro K. apply in_map_iff in K as ((k, y) & Ek & K). cbn in Ek. subst k. apply KK in K.
        rewrite (e_keys g g1 x EF) in K. apply dict_del_in in K as (_ & K). cbn in K. congruence.
    + destruct (CK j Hj) as (A & B). split; [exact A|]. rewrite <- (static_key g g1 j (e_static g g1 x EF)). exact B.
  - intros e He. apply KK in He. rewrite (e_keys g g1 x EF) in He. now apply dict_del_in in He.
  - intros j Hj. rewrite CO by (rewrite N1; tauto).
    assert (j <> x) by (intros ->; contradiction).
    rewrite (e_children g g1 x EF j) by assumption. rewrite PX.
    destruct (Nat.eqb_spec p j); [subst; contradiction|reflexivity].
Qed.
