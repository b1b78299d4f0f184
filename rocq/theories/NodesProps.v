(** Theorems about editing the bifurcation graph. *)
From Coq Require Import QArith.
From Verif Require Import Base RootsModel UnionModel LabelsModel NodesModel NodesSpec NodesProofs NodesEdit NodesTop
  CoordMerge CoordProps.
Local Open Scope Z_scope.

(** ** C39: every graph built and edited with these operations is well formed *)
Theorem C39_empty : well_formed empty_graph.
Proof.
  constructor; cbn; try (now constructor); try contradiction; intros; try contradiction; split; try contradiction; tauto.
Qed.
Print Assumptions C39_empty.

(** A new node whose basins lie inside its (reducible) parent and outside its siblings. *)
Theorem C39_add : forall g red basins inf mn mx key parent, well_formed g ->
  (forall p, parent = Some p -> In p (g_nodes g) /\ reducible g p /\ incl basins (basins_of g p)) ->
  (forall j b, In j (g_nodes g) -> parent_of g j = parent -> In b basins -> ~ In b (basins_of g j)) ->
  (forall k, key = Some k -> forall j, In j (g_nodes g) -> key_of g j <> k) ->
  exists g' n, add_node g red basins inf mn mx key parent = Done (g', n) /\ well_formed g' /\
    g_nodes g' = g_nodes g ++ [n] /\ ~ In n (g_nodes g) /\
    basins_of g' n = basins /\ n_red (g_heap g' n) = red /\ parent_of g' n = parent /\
    n_min (g_heap g' n) = mn /\ n_max (g_heap g' n) = mx /\
    (forall k, key = Some k -> key_of g' n = k) /\
    (forall b, leaf_basin g' b <-> leaf_basin g b \/ (red = false /\ In b basins)).
Proof.
  intros g red basins inf mn mx key parent W A1 A2 K.
  assert (K' : forall k, key = Some k -> ~ In k (map fst (g_keys g))).
  { intros k Ek H. apply in_map_iff in H as ((k', j) & Ej & H). cbn in Ej. subst k'.
    apply (wf_keys g W) in H as (Hj & Kj). now apply (K k Ek j). }
  destruct (add_effect g red basins inf mn mx key parent W (conj A1 A2) K') as (g' & n & k & E & Kk & Nk & A).
  pose proof (wf_fresh g W) as F. rewrite <- (a_id _ _ _ _ _ _ _ _ _ _ A) in F.
  pose proof (a_node _ _ _ _ _ _ _ _ _ _ A) as AN.
  exists g', n. split; [exact E|]. split; [exact (added_wf _ _ _ _ _ _ _ _ _ _ W (conj A1 A2) Nk A)|].
  split; [apply (a_nodes _ _ _ _ _ _ _ _ _ _ A)|]. split; [exact F|].
  unfold basins_of, parent_of, key_of. rewrite AN. cbn [n_basins n_red n_parent n_min n_max n_key].
  repeat (split; [reflexivity|]). split; [intros k' Hk; symmetry; symmetry; now rewrite (Kk k' Hk)|].
  intro b. unfold leaf_basin. rewrite (a_nodes _ _ _ _ _ _ _ _ _ _ A). split.
  - intros (j & Hj & Rj & Bj). apply in_app_iff in Hj as [Hj|[<-|[]]].
    + left. exists j. split; [exact Hj|].
      destruct (a_other _ _ _ _ _ _ _ _ _ _ A j) as (S & _); [intros ->; contradiction|].
      apply static_fields in S as (_ & S2 & S3 & _). unfold reducible, basins_of in *. rewrite <- S2, <- S3. tauto.
    + right. unfold reducible, basins_of in *. rewrite AN in *. cbn in *. destruct red; [now destruct Rj|auto].
  - intros [(j & Hj & Rj & Bj)|(-> & Hb)].
    + exists j. split; [apply in_app_iff; now left|].
      destruct (a_other _ _ _ _ _ _ _ _ _ _ A j) as (S & _); [intros ->; contradiction|].
      apply static_fields in S as (_ & S2 & S3 & _). unfold reducible, basins_of in *. rewrite S2, S3. tauto.
    + exists n. split; [apply in_app_iff; right; now left|]. unfold reducible, basins_of. rewrite AN. cbn. now split.
Qed.
Print Assumptions C39_add.

(** Removing a node: the children move to its parent; removing a reducible node loses no basin. *)
Theorem C39_remove : forall g i, well_formed g -> In i (g_nodes g) -> reducible g i \/ parent_of g i <> None ->
  exists g', remove g i = Done g' /\ well_formed g' /\ taken_out g g' i /\
    (reducible g i -> forall b, leaf_basin g b <-> leaf_basin g' b).
Proof.
  intros g i W Hi D. destruct (remove_ok g i W Hi D) as (g' & E & EF). exists g'. split; [exact E|].
  split; [now apply (eff_wf g g' i)|]. split; [now apply eff_taken_out|]. intro R. now apply (leaf_removed g g' i).
Qed.
Print Assumptions C39_remove.

(** An irreducible root cannot be removed. *)
Theorem C39_remove_root : forall g i, ~ reducible g i -> parent_of g i = None -> remove g i = Raised.
Proof.
  intros g i R P. unfold reducible, parent_of in *. unfold remove. destruct (n_red (g_heap g i)); [now destruct R|].
  unfold remove_irreducible. now rewrite P.
Qed.
Print Assumptions C39_remove_root.

(** Collapsing a reducible node replaces it and everything below it by one irreducible node with
    the same key, basins and parent. *)
Theorem C39_collapse : forall fuel g i, well_formed g -> In i (g_nodes g) -> reducible g i ->
  (length (g_nodes g) <= fuel)%nat ->
  exists g' n, make_irreducible fuel g i = Done (g', n) /\ well_formed g' /\ collapsed g g' i n /\
    (forall b, leaf_basin g b -> leaf_basin g' b).
Proof.
  intros fuel g i W Hi R F. destruct (make_irreducible_total fuel g i W Hi F) as (deep & D).
  destruct (make_irreducible_ok fuel g i deep W Hi R D) as (g' & n & E & W' & C & _).
  exists g', n. repeat (split; [assumption|]). now apply (leaf_collapsed g g' i n).
Qed.
Print Assumptions C39_collapse.

(** Nodes that share a basin lie on one branch; the basins of irreducible nodes are disjoint. *)
Theorem C39_branches : forall g i j b, well_formed g -> In i (g_nodes g) -> In j (g_nodes g) ->
  In b (basins_of g i) -> In b (basins_of g j) -> i = j \/ ancestor g i j \/ ancestor g j i.
Proof. intros g i j b W Hi Hj Bi Bj. now apply (related g b W _ i j (le_n _)). Qed.
Print Assumptions C39_branches.

Theorem C39_leaves : forall g i j b, well_formed g -> In i (g_nodes g) -> In j (g_nodes g) ->
  ~ reducible g i -> ~ reducible g j -> In b (basins_of g i) -> In b (basins_of g j) -> i = j.
Proof.
  intros g i j b W Hi Hj Ri Rj Bi Bj. destruct (C39_branches g i j b W Hi Hj Bi Bj) as [|[A|A]]; [assumption| |].
  - destruct (ancestor_incl g i j W Hj A) as (_ & R & _). contradiction.
  - destruct (ancestor_incl g j i W Hi A) as (_ & R & _). contradiction.
Qed.
Print Assumptions C39_leaves.

(** The two automatic passes, whenever they finish. *)
Theorem C39_prune : forall argsort cutoff g g', sorts argsort -> well_formed g ->
  remove_shallow argsort cutoff g = Done g' ->
  well_formed g' /\ (forall b, leaf_basin g b <-> leaf_basin g' b) /\
  (forall i, In i (g_nodes g') -> In i (g_nodes g)) /\
  (forall i, In i (g_nodes g) -> ~ reducible g i -> In i (g_nodes g')).
Proof.
  intros argsort cutoff g g' S W E. destruct (sorted_reducible_ok argsort g S (wf_nodup g W)) as (N & I).
  destruct (shallow_loop_ok cutoff _ g g' W (tl_nodup _ N) (fun x H => proj1 (I x) (tl_in _ x H)) E)
    as (A & B & C & D).
  repeat (split; [assumption|]). intros i Hi Ri. apply D; [exact Hi|]. intro H. apply tl_in, I in H. tauto.
Qed.
Print Assumptions C39_prune.

Theorem C39_combine : forall argsort fuel cutoff g g', sorts argsort -> well_formed g ->
  combine_shallow argsort fuel cutoff g = Done g' ->
  well_formed g' /\ (forall b, leaf_basin g b -> leaf_basin g' b).
Proof.
  intros argsort fuel cutoff g g' S W E. destruct (sorted_reducible_ok argsort g S (wf_nodup g W)) as (N & I).
  apply (combine_loop_ok fuel cutoff _ g g' W (NoDup_rev N)) in E; [exact E|].
  intros x H. apply in_rev, I in H. tauto.
Qed.
Print Assumptions C39_combine.

(** Histories. *)
Inductive edit :=
| Remove (i : nat) | Collapse (i : nat) | Prune (cutoff : Q) | Combine (cutoff : Q).

Definition edit_run (argsort : list Q -> list nat) (fuel : nat) (g : graph) (e : edit) : outcome graph :=
  match e with
  | Remove i => remove g i
  | Collapse i => obind (make_irreducible fuel g i) (fun r => Done (fst r))
  | Prune c => remove_shallow argsort c g
  | Combine c => combine_shallow argsort fuel c g
  end.
Fixpoint edits_run (argsort : list Q -> list nat) (fuel : nat) (g : graph) (l : list edit) : outcome graph :=
  match l with
  | [] => Done g
  | e :: t => obind (edit_run argsort fuel g e) (fun g1 => edits_run argsort fuel g1 t)
  end.
(** Edits are called on nodes of the graph ([careful]: and irreducible nodes are not removed). *)
Definition on_graph (careful : bool) (g : graph) (e : edit) : Prop :=
  match e with
  | Remove i => In i (g_nodes g) /\ (careful = true -> reducible g i)
  | Collapse i => In i (g_nodes g)
  | _ => True
  end.
Fixpoint all_on_graph (argsort : list Q -> list nat) (fuel : nat) (careful : bool) (g : graph) (l : list edit) : Prop :=
  match l with
  | [] => True
  | e :: t => on_graph careful g e /\
              forall g1, edit_run argsort fuel g e = Done g1 -> all_on_graph argsort fuel careful g1 t
  end.

Lemma edit_one argsort fuel careful g e g' : sorts argsort -> well_formed g -> on_graph careful g e ->
  edit_run argsort fuel g e = Done g' ->
  well_formed g' /\ (careful = true -> forall b, leaf_basin g b -> leaf_basin g' b).
Proof.
  intros S W O E. destruct e as [i|i|c|c]; cbn in O, E.
  - destruct O as (Hi & C).
    assert (D : reducible g i \/ parent_of g i <> None).
    { unfold reducible, parent_of. destruct (n_red (g_heap g i)) eqn:R; [now left|right].
      intro P. unfold remove in E. rewrite R in E. unfold remove_irreducible in E. rewrite P in E. discriminate. }
    destruct (C39_remove g i W Hi D) as (g1 & E1 & W1 & _ & L). rewrite E1 in E. injection E as <-.
    split; [exact W1|]. intros Ca b. apply L. now apply C.
  - destruct (make_irreducible fuel g i) as [[g1 n]| |] eqn:M; try discriminate. injection E as <-. cbn [fst].
    assert (R : reducible g i).
    { unfold reducible. destruct (n_red (g_heap g i)) eqn:R; [reflexivity|].
      unfold make_irreducible in M. rewrite R in M. discriminate. }
    destruct (deep_children fuel g i) as [deep| |] eqn:D;
      [|unfold make_irreducible in M; unfold reducible in R; rewrite R, D in M; discriminate
       |unfold make_irreducible in M; unfold reducible in R; rewrite R, D in M; discriminate].
    destruct (make_irreducible_ok fuel g i deep W O R D) as (g2 & n2 & E2 & W2 & C & _).
    rewrite M in E2. injection E2 as <- <-. split; [exact W2|]. intros _. now apply (leaf_collapsed g g1 i n).
  - destruct (C39_prune argsort c g g' S W E) as (A & B & _). split; [exact A|]. intros _ b. apply B.
  - destruct (C39_combine argsort fuel c g g' S W E) as (A & B). split; [exact A|]. intros _. exact B.
Qed.

Theorem C39_history : forall argsort fuel careful l g g', sorts argsort -> well_formed g ->
  all_on_graph argsort fuel careful g l -> edits_run argsort fuel g l = Done g' ->
  well_formed g' /\ (careful = true -> forall b, leaf_basin g b -> leaf_basin g' b).
Proof.
  intros argsort fuel careful l. induction l as [|e t IH]; intros g g' S W O E.
  { injection E as <-. split; [exact W|auto]. }
  cbn [edits_run] in E. destruct (edit_run argsort fuel g e) as [g1| |] eqn:E1; try discriminate. cbn [obind] in E.
  destruct O as (O & OT). destruct (edit_one argsort fuel careful g e g1 S W O E1) as (W1 & L1).
  destruct (IH g1 g' S W1 (OT g1 E1) E) as (W2 & L2). split; [exact W2|]. intros C b H. apply L2, L1; assumption.
Qed.
Print Assumptions C39_history.

(** ** Building graphs *)
Definition memb (x : nat) (l : list nat) : bool := existsb (Nat.eqb x) l.
Definition same_opt (a b : option nat) : bool :=
  match a, b with Some x, Some y => Nat.eqb x y | None, None => true | _, _ => false end.
Definition addable (g : graph) (bs : list nat) (p : option nat) : bool :=
  (match p with
   | None => true
   | Some p => memb p (g_nodes g) && n_red (g_heap g p) && forallb (fun b => memb b (basins_of g p)) bs
   end) &&
  forallb (fun j => negb (same_opt (parent_of g j) p) || forallb (fun b => negb (memb b (basins_of g j))) bs)
    (g_nodes g).
Definition entry : Type := bool * list nat * bool * Q * Q * option nat.
Fixpoint build (g : graph) (l : list entry) : option graph :=
  match l with
  | [] => Some g
  | (red, bs, inf, mn, mx, p) :: t =>
      if addable g bs p
      then match add_node g red bs inf mn mx None p with Done (g1, _) => build g1 t | _ => None end
      else None
  end.

Lemma memb_in x l : memb x l = true <-> In x l.
Proof. apply existsb_eqb. Qed.
Lemma same_opt_refl a : same_opt a a = true.
Proof. destruct a; cbn; [apply Nat.eqb_refl|reflexivity]. Qed.

(** Adding nodes one by one, each inside its parent and apart from its siblings, gives a well
    formed graph. *)
Theorem C39_build : forall l g g', well_formed g -> build g l = Some g' -> well_formed g'.
Proof.
  induction l as [|[[[[[red bs] inf] mn] mx] p] t IH]; intros g g' W E; cbn [build] in E.
  { now injection E as <-. }
  destruct (addable g bs p) eqn:A; [|discriminate]. unfold addable in A. apply andb_prop in A as (A1 & A2).
  destruct (C39_add g red bs inf mn mx None p W) as (g1 & n & E1 & W1 & _).
  - intros q ->. apply andb_prop in A1 as (A1 & A3). apply andb_prop in A1 as (A1 & A4).
    split; [now apply memb_in|]. split; [exact A4|]. intros b Hb. rewrite forallb_forall in A3. now apply memb_in, A3.
  - intros j b Hj Pj Hb Hb'. rewrite forallb_forall in A2. specialize (A2 j Hj). rewrite Pj, same_opt_refl in A2.
    cbn in A2. rewrite forallb_forall in A2. specialize (A2 b Hb). apply negb_true_iff in A2.
    apply memb_in in Hb'. congruence.
  - discriminate.
  - rewrite E1 in E. now apply (IH g1 g').
Qed.
Print Assumptions C39_build.

Definition getg (o : option graph) : graph := match o with Some g => g | None => empty_graph end.
Definition show (o : outcome graph) : option (list (nat * Z * bool * list nat * option nat * list nat * Q) * list nat) :=
  match o with
  | Done g => Some (map (fun i => (i, key_of g i, n_red (g_heap g i), basins_of g i, parent_of g i, children_of g i,
                n_max (g_heap g i))) (g_nodes g), g_roots g)
  | _ => None
  end.
Lemma built l : build empty_graph l <> None -> well_formed (getg (build empty_graph l)).
Proof.
  destruct (build empty_graph l) eqn:E; [|congruence]. intros _. exact (C39_build l _ _ C39_empty E).
Qed.

(** A root 0 with the branches 1 (leaves 3 and 4) and the leaf 2. *)
Definition ex_tree := getg (build empty_graph
  [(true, [0; 1; 2]%nat, true, 0, 1, None); (true, [0; 1]%nat, false, 1, 2, Some 0%nat);
   (false, [2]%nat, false, 1, 7, Some 0%nat); (false, [0]%nat, false, 2, 5, Some 1%nat);
   (false, [1]%nat, false, 2, 6, Some 1%nat)]%Q).
Example ex_tree_wf : well_formed ex_tree.
Proof. apply built. vm_compute. discriminate. Qed.

Example C39_ex_remove : show (remove ex_tree 1) = Some
  ([(0%nat, 0, true, [0; 1; 2]%nat, None, [2; 3; 4]%nat, 1%Q); (2%nat, 2, false, [2]%nat, Some 0%nat, [], 7%Q);
    (3%nat, 3, false, [0]%nat, Some 0%nat, [], 5%Q); (4%nat, 4, false, [1]%nat, Some 0%nat, [], 6%Q)], [0%nat]).
Proof. vm_compute. reflexivity. Qed.
Example C39_ex_collapse : show (edit_run sort_idx 9 ex_tree (Collapse 1)) = Some
  ([(0%nat, 0, true, [0; 1; 2]%nat, None, [2; 5]%nat, 1%Q); (2%nat, 2, false, [2]%nat, Some 0%nat, [], 7%Q);
    (5%nat, 1, false, [0; 1]%nat, Some 0%nat, [], 6%Q)], [0%nat]).
Proof. vm_compute. reflexivity. Qed.
Example C39_ex_root : show (remove ex_tree 0) = Some
  ([(1%nat, 1, true, [0; 1]%nat, None, [3; 4]%nat, 2%Q); (2%nat, 2, false, [2]%nat, None, [], 7%Q);
    (3%nat, 3, false, [0]%nat, Some 1%nat, [], 5%Q); (4%nat, 4, false, [1]%nat, Some 1%nat, [], 6%Q)], [1%nat; 2%nat]).
Proof. vm_compute. reflexivity. Qed.
Example C39_ex_combine : show (combine_shallow sort_idx 9 4 ex_tree) = show (edit_run sort_idx 9 ex_tree (Collapse 1)).
Proof. vm_compute. reflexivity. Qed.
Example C39_ex_history : option_map (fun r => map (fun x => fst (fst (fst (fst (fst (fst x)))))) (fst r))
  (show (edits_run sort_idx 9 ex_tree [Prune (1 # 2); Collapse 1; Remove 0])) = Some [2%nat; 5%nat].
Proof. vm_compute. reflexivity. Qed.

(** ** C60: pruning shallow nodes can fail *)
(** Two reducible roots: the second one has no parent. *)
Definition two_roots := getg (build empty_graph
  [(true, [0; 1]%nat, false, 0, 1, None); (false, [0]%nat, false, 1, 2, Some 0%nat);
   (false, [1]%nat, false, 1, 3, Some 0%nat); (true, [2; 3]%nat, false, 0, 1, None);
   (false, [2]%nat, false, 1, 2, Some 3%nat); (false, [3]%nat, false, 1, 3, Some 3%nat)]%Q).
Theorem C60_roots_refuted : exists g, well_formed g /\ remove_shallow sort_idx (1 # 20) g = Raised /\
  (forall i, In i (g_nodes g) -> (n_min (g_heap g i) < n_max (g_heap g i))%Q).
Proof.
  exists two_roots. split; [apply built; vm_compute; discriminate|]. split; [vm_compute; reflexivity|].
  intros i Hi. apply Qltb_lt. revert i Hi. apply forallb_forall. vm_compute. reflexivity.
Qed.
Print Assumptions C60_roots_refuted.

(** A single root of depth zero: its reducible child is compared with a zero depth. *)
Definition flat_root := getg (build empty_graph
  [(true, [0; 1; 2]%nat, false, 1, 1, None); (true, [0; 1]%nat, false, 1, 2, Some 0%nat);
   (false, [2]%nat, false, 1, 3, Some 0%nat);
   (false, [0]%nat, false, 2, 5, Some 1%nat); (false, [1]%nat, false, 2, 6, Some 1%nat)]%Q).
Theorem C60_depth_refuted : exists g, well_formed g /\ length (g_roots g) = 1%nat /\
  remove_shallow sort_idx (1 # 20) g = Raised.
Proof. exists flat_root. split; [apply built; vm_compute; discriminate|]. split; vm_compute; reflexivity. Qed.
Print Assumptions C60_depth_refuted.

Definition oget_graph (o : outcome graph) : graph := match o with Done g => g | _ => empty_graph end.
Definition oget_pair (o : outcome (graph * nat)) : graph * nat :=
  match o with Done r => r | _ => (empty_graph, 0%nat) end.

(** ** C61: the depth reported for a node can be out of date *)
Definition chain := getg (build empty_graph
  [(true, [0; 1]%nat, true, 0, 1, None); (true, [0; 1]%nat, false, 1, 2, Some 0%nat);
   (false, [0]%nat, false, 2, 5, Some 1%nat); (false, [1]%nat, false, 2, 6, Some 1%nat)]%Q).
Theorem C61_stale_refuted : exists g i p g1 d0 g2, well_formed g /\ get_depth g p = (g1, d0) /\
  remove g1 i = Done g2 /\ In p (g_nodes g2) /\
  ~ (snd (get_depth g2 p) == n_max (g_heap g2 p) - n_min (g_heap g2 p))%Q.
Proof.
  exists chain, 1%nat, 0%nat. destruct (get_depth chain 0) as [g1 d0] eqn:E1. exists g1, d0.
  destruct (remove g1 1) as [g2| |] eqn:E2;
    [|exfalso; assert (X : remove (fst (get_depth chain 0)) 1 <> Raised) by (vm_compute; discriminate); rewrite E1 in X; now apply X
     |exfalso; assert (X : remove (fst (get_depth chain 0)) 1 <> Running) by (vm_compute; discriminate); rewrite E1 in X; now apply X].
  exists g2. split; [apply built; vm_compute; discriminate|]. split; [reflexivity|]. split; [reflexivity|].
  assert (G : g2 = oget_graph (remove (fst (get_depth chain 0)) 1)) by (rewrite E1; cbn [fst]; now rewrite E2).
  subst g2. split; [vm_compute; tauto|]. vm_compute. discriminate.
Qed.
Print Assumptions C61_stale_refuted.

(** ** C62: after a collapse a parent can reach above the point where its only child begins *)
Theorem C62_overlap_refuted : exists g i g2 n p, well_formed g /\ In i (g_nodes g) /\ reducible g i /\
  (forall j q, In j (g_nodes g) -> parent_of g j = Some q -> (n_max (g_heap g q) == n_min (g_heap g j))%Q) /\
  make_irreducible 9 g i = Done (g2, n) /\ parent_of g2 n = Some p /\
  (n_min (g_heap g2 n) < n_max (g_heap g2 p))%Q.
Proof.
  exists chain, 1%nat. destruct (make_irreducible 9 chain 1) as [[g2 n]| |] eqn:E2;
    [|exfalso; revert E2; vm_compute; discriminate|exfalso; revert E2; vm_compute; discriminate].
  exists g2, n, 0%nat. split; [apply built; vm_compute; discriminate|]. split; [vm_compute; tauto|].
  split; [reflexivity|]. split.
  { intros j q Hj Pj. apply Qeq_bool_eq.
    assert (F : forallb (fun j => match parent_of chain j with
       | Some q => Qeq_bool (n_max (g_heap chain q)) (n_min (g_heap chain j)) | None => true end) (g_nodes chain) = true)
      by (vm_compute; reflexivity).
    rewrite forallb_forall in F. specialize (F j Hj). now rewrite Pj in F. }
  split; [reflexivity|].
  assert (G : (g2, n) = oget_pair (make_irreducible 9 chain 1)) by now rewrite E2.
  assert (G1 : g2 = fst (oget_pair (make_irreducible 9 chain 1))) by now rewrite <- G.
  assert (G2 : n = snd (oget_pair (make_irreducible 9 chain 1))) by now rewrite <- G.
  subst g2 n. split; [vm_compute; reflexivity|]. vm_compute. reflexivity.
Qed.
Print Assumptions C62_overlap_refuted.
