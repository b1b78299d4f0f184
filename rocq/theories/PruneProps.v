(** Which nodes the two automatic passes of the bifurcation graph change. *)
From Coq Require Import QArith Lqa.
From Verif Require Import Base RootsModel UnionModel LabelsModel NodesModel NodesSpec NodesProofs NodesEdit NodesTop
  CoordMerge CoordProps NodesProps NodesPrune NodesCombine.
Local Open Scope Z_scope.

(** Reducible domains start above the point where their parents start. *)
Definition nested_values (g : graph) : Prop := forall i p, In i (g_nodes g) -> reducible g i ->
  parent_of g i = Some p -> (n_min (g_heap g p) < n_min (g_heap g i))%Q.
(** Nobody has asked for the depth of a node yet. *)
Definition fresh (g : graph) : Prop := forall i, In i (g_nodes g) -> n_depth (g_heap g i) = None.

(** ** C266: pruning removes exactly the reducible nodes that are shallow next to what is left above them *)
Theorem C266_pruned : forall argsort cutoff g g', sorts argsort -> well_formed g -> fresh g -> nested_values g ->
  remove_shallow argsort cutoff g = Done g' ->
  (forall i, In i (g_nodes g) -> reducible g i ->
     In i (g_nodes g') <->
     parent_of g i = None \/
     exists p, nearest g (fun q => In q (g_nodes g')) i p /\
       (cutoff < (n_max (g_heap g i) - n_min (g_heap g i)) / (n_max (g_heap g p) - n_min (g_heap g p)))%Q) /\
  (forall i, In i (g_nodes g) -> ~ reducible g i -> In i (g_nodes g')) /\
  (forall i, In i (g_nodes g') -> In i (g_nodes g)) /\
  (forall i p, In i (g_nodes g') -> parent_of g' i = Some p <-> nearest g (fun q => In q (g_nodes g')) i p).
Proof.
  intros argsort cutoff g g' S W F M E.
  destruct (sorted_reducible_ok argsort g S (wf_nodup g W)) as (N & I).
  pose proof (sorted_reducible_sorted argsort g S) as SS. unfold remove_shallow in E.
  assert (HR : forall h t, sorted_reducible argsort g = h :: t -> parent_of g h = None)
    by (intros h t; now apply head_root).
  set (l := sorted_reducible argsort g) in *.
  assert (PL : pruned g g' /\ (forall j, In j (g_nodes g') -> In j (g_nodes g)) /\
    (forall j, In j (g_nodes g) -> ~ In j (tl l) -> In j (g_nodes g')) /\
    (forall j, n_depth (g_heap g j) <> None -> n_depth (g_heap g' j) <> None) /\
    forall x, In x (tl l) -> n_depth (g_heap g' x) <> None /\
      exists p, nearest g (fun q => In q (g_nodes g')) x p /\ ~ (range_of g p == 0)%Q /\
      n_depth (g_heap g' p) <> None /\
      (In x (g_nodes g') <-> (cutoff < range_of g x / range_of g p)%Q)).
  { apply (prune_loop cutoff g (tl l) g g'); auto.
    - now apply pruned_refl.
    - now apply tl_nodup.
    - intros x Hx. now apply I, tl_in.
    - destruct l; [exact SS|]. cbn [map tl] in *. now apply StronglySorted_inv in SS.
    - intros x q Hx A. apply tl_in, I in Hx as (Hx & Rx). now apply (anc_min g W M). }
  destruct PL as (P & K1 & K2 & _ & K3). split; [|split; [|split; [exact K1|]]].
  - intros i Hi Ri. destruct (in_dec Nat.eq_dec i (tl l)) as [H|H].
    + destruct (K3 i H) as (_ & p & NP & _ & _ & IFF). rewrite IFF. split.
      * intro L. right. exists p. split; [exact NP|exact L].
      * intros [Z|(p' & NP' & L)]; [|now rewrite (nearest_fun _ _ _ _ NP _ NP')].
        inversion NP; congruence.
    + split; [|now intros _; apply K2]. intros _. left.
      assert (Hl : In i l) by (now apply I). destruct l as [|h t]; [destruct Hl|].
      destruct Hl as [<-|Hl]; [now apply (HR h t)|contradiction].
  - intros i Hi Ri. apply K2; [exact Hi|]. intro H. apply tl_in, I in H. tauto.
  - intros i p Hi. pose proof (pr_parent g g' P i Hi) as Q. split.
    + intro X. now rewrite X in Q.
    + intro X. destruct (parent_of g' i) as [p'|]; [f_equal; now apply (nearest_fun _ _ _ _ Q)|].
      inversion X; congruence.
Qed.
Print Assumptions C266_pruned.

(** It finishes on every graph with at most one reducible root in which no reducible node is flat. *)
Theorem C266_runs : forall argsort cutoff g, sorts argsort -> well_formed g -> fresh g -> nested_values g ->
  (forall i j, In i (g_nodes g) -> In j (g_nodes g) -> reducible g i -> reducible g j ->
     parent_of g i = None -> parent_of g j = None -> i = j) ->
  (forall i, In i (g_nodes g) -> reducible g i -> (n_min (g_heap g i) < n_max (g_heap g i))%Q) ->
  exists g', remove_shallow argsort cutoff g = Done g'.
Proof.
  intros argsort cutoff g S W F M U D. destruct (sorted_reducible_ok argsort g S (wf_nodup g W)) as (N & I).
  assert (HR : forall h t, sorted_reducible argsort g = h :: t -> parent_of g h = None)
    by (intros h t; now apply head_root).
  unfold remove_shallow. set (l := sorted_reducible argsort g) in *. apply (prune_total cutoff g).
  - now apply pruned_refl.
  - now apply tl_nodup.
  - intros x Hx. pose proof (tl_in _ _ Hx) as Hx'. apply I in Hx' as (Hx1 & Rx). split; [exact Hx1|]. split; [exact Rx|].
    intro P. destruct l as [|h t]; [destruct Hx|]. cbn [tl] in Hx. destruct (proj1 (I h) (or_introl eq_refl)) as (Hh & Rh).
    assert (x = h) by (apply U; auto; now apply (HR h t)). subst. inversion N; contradiction.
  - intros p Hp Rp Z. specialize (D p Hp Rp). unfold range_of in Z. lra.
  - intros i p Hi A. now apply (ancestor_incl g p i W Hi).
Qed.
Print Assumptions C266_runs.

(** A root 0-10 with a chain of reducible nodes 1 (1-2), 2 (2-4) and leaves: with the cutoff
    0.15 node 1 goes (depth ratio 1/10), node 2 stays (2/10 against the root, the nearest node left). *)
Definition ex_prune := getg (build empty_graph
  [(true, [0; 1; 2; 3]%nat, true, 0, 10, None); (true, [0; 1; 2]%nat, false, 1, 2, Some 0%nat);
   (false, [3]%nat, false, 1, 7, Some 0%nat); (true, [0; 1]%nat, false, 2, 4, Some 1%nat);
   (false, [2]%nat, false, 2, 6, Some 1%nat); (false, [0]%nat, false, 4, 5, Some 3%nat);
   (false, [1]%nat, false, 4, 9, Some 3%nat)]%Q).
Lemma graph_check g :
  forallb (fun i => match n_depth (g_heap g i) with None => true | _ => false end &&
     match parent_of g i with
     | Some p => negb (n_red (g_heap g i)) || Qltb (n_min (g_heap g p)) (n_min (g_heap g i))
     | None => true end)%bool (g_nodes g) = true -> fresh g /\ nested_values g.
Proof.
  intro F. rewrite forallb_forall in F. split.
  - intros i Hi. specialize (F i Hi). apply andb_prop in F as (F & _). now destruct (n_depth (g_heap g i)).
  - intros i p Hi Ri Pi. specialize (F i Hi). apply andb_prop in F as (_ & F). rewrite Pi in F.
    unfold reducible in Ri. rewrite Ri in F. now apply Qltb_lt.
Qed.
Example C266_ex_graph : well_formed ex_prune /\ fresh ex_prune /\ nested_values ex_prune.
Proof. split; [apply built; vm_compute; discriminate|]. apply graph_check. vm_compute. reflexivity. Qed.
Example C266_ex_run : show (remove_shallow sort_idx (15 # 100) ex_prune) = Some
  ([(0%nat, 0, true, [0; 1; 2; 3]%nat, None, [2; 3; 4]%nat, 1%Q); (2%nat, 2, false, [3]%nat, Some 0%nat, [], 7%Q);
    (3%nat, 3, true, [0; 1]%nat, Some 0%nat, [5; 6]%nat, 4%Q); (4%nat, 4, false, [2]%nat, Some 0%nat, [], 6%Q);
    (5%nat, 5, false, [0]%nat, Some 3%nat, [], 5%Q); (6%nat, 6, false, [1]%nat, Some 3%nat, [], 9%Q)], [0%nat]).
Proof. vm_compute. reflexivity. Qed.

(** ** C267: combining collapses exactly the finite domains all of whose leaves are shallow *)
(** What [node.depth] returns: the value cached at the first request. *)
Definition depth_shown (g : graph) (i : nat) : Q :=
  match n_depth (g_heap g i) with Some d => d | None => n_max (g_heap g i) - n_min (g_heap g i) end.

(** The new irreducible node [n] of [g'] replaces the reducible node [k] of [g]. *)
Record stands_for (g g' : graph) (n k : nat) : Prop := {
  sf_new : ~ In n (g_nodes g);
  sf_old : In k (g_nodes g);
  sf_leaf : ~ reducible g' n;
  sf_red : reducible g k;
  sf_finite : n_infinite (g_heap g k) = false;
  sf_key : key_of g' n = key_of g k;
  sf_basins : basins_of g' n = basins_of g k;
  sf_min : n_min (g_heap g' n) = n_min (g_heap g k);
  sf_parent : parent_of g' n = parent_of g k
}.

Theorem C267_combined : forall argsort fuel cutoff g g', sorts argsort -> well_formed g -> nested_values g ->
  (forall i p, In i (g_nodes g) -> parent_of g i = Some p -> (n_min (g_heap g p) <= n_min (g_heap g i))%Q) ->
  (forall i p, In i (g_nodes g) -> reducible g i -> parent_of g i = Some p -> n_depth (g_heap g p) <> None) ->
  (forall i, In i (g_nodes g) -> ~ reducible g i -> depth_shown g i = (n_max (g_heap g i) - n_min (g_heap g i))%Q) ->
  (forall i, In i (g_nodes g) -> reducible g i -> (0 < depth_shown g i)%Q) ->
  combine_shallow argsort fuel cutoff g = Done g' ->
  (forall i, In i (g_nodes g') -> reducible g' i -> In i (g_nodes g) /\ reducible g i /\
     parent_of g' i = parent_of g i /\ depth_shown g' i = depth_shown g i /\
     (n_infinite (g_heap g i) = false ->
      exists c, In c (g_nodes g') /\ ancestor g' i c /\ ~ reducible g' c /\
        (cutoff < (n_max (g_heap g' c) - n_min (g_heap g' c)) / depth_shown g i)%Q)) /\
  (forall n, In n (g_nodes g') -> ~ In n (g_nodes g) -> exists k, stands_for g g' n k /\
     forall c, In c (g_nodes g) -> ancestor g k c -> ~ reducible g c ->
       ((n_max (g_heap g c) - n_min (g_heap g c)) / depth_shown g k <= cutoff)%Q /\
       (n_max (g_heap g c) <= n_max (g_heap g' n))%Q) /\
  (forall c, In c (g_nodes g) -> In c (g_nodes g') \/
     exists n k, In n (g_nodes g') /\ stands_for g g' n k /\ (c = k \/ ancestor g k c)).
Proof.
  intros argsort fuel cutoff g g' S W M1 M2 CD LD PD E.
  destruct (sorted_reducible_ok argsort g S (wf_nodup g W)) as (N & I).
  pose proof (sorted_reducible_sorted argsort g S) as SS.
  destruct (combine_loop_spec cutoff g W M1 M2 CD LD PD fuel (rev (sorted_reducible argsort g)) g (fun j => j)
    (fun _ => False) g') as (o & C & D); auto.
  { now apply combined_refl. }
  { intros i _ []. }
  { now apply NoDup_rev. }
  { intros x H. now apply I, in_rev. }
  { revert SS. generalize (sorted_reducible argsort g). intro l. induction l as [|a l IH]; intro SS; [constructor|].
    cbn [map] in SS. apply StronglySorted_inv in SS as (SS & SX). cbn [rev]. rewrite map_app. cbn [map].
    specialize (IH SS). rewrite Forall_forall in SX.
    assert (AL : forall x, In x (map (fun i => (- n_min (g_heap g i))%Q) (rev l)) -> (x <= - n_min (g_heap g a))%Q).
    { intros x Hx. apply in_map_iff in Hx as (y & <- & Hy). apply in_rev in Hy.
      specialize (SX _ (in_map (fun i => n_min (g_heap g i)) _ _ Hy)). cbn in SX. lra. }
    clear SS SX. revert IH AL. generalize (map (fun i => (- n_min (g_heap g i))%Q) (rev l)). intro m.
    induction m as [|b m IHm]; intros SM AL; [repeat constructor|].
    apply StronglySorted_inv in SM as (SM & SB). cbn [app]. constructor.
    - apply IHm; [exact SM|]. intros x Hx. apply AL. now right.
    - apply Forall_app. split; [exact SB|]. constructor; [|constructor]. apply AL. now left. }
  { intros i x []. }
  assert (SF : forall n, In n (g_nodes g') -> ~ In n (g_nodes g) -> stands_for g g' n (o n)).
  { intros n Hn Nn. destruct (cb_new _ _ _ _ C n Hn Nn) as (A1 & A2 & A3 & _).
    destruct (cb_same _ _ _ _ C n Hn) as (B1 & B2 & B3 & B4). constructor; auto. apply (cb_org _ _ _ _ C n Hn). }
  split; [|split].
  - intros i Hi Ri. destruct (red_old _ _ _ _ i C Hi Ri) as (Hi0 & Oi & Ri0).
    destruct (cb_red _ _ _ _ C i Hi Ri) as (DI & _). destruct (cb_same _ _ _ _ C i Hi) as (_ & _ & _ & PI). rewrite Oi in PI.
    split; [exact Hi0|]. split; [exact Ri0|]. split; [exact PI|]. split; [exact DI|]. intro F.
    destruct (cb_old _ _ _ _ C i Hi Hi0) as (_ & _ & FI). rewrite <- FI in F.
    destruct (D i Hi) as (c & C1 & C2 & C3 & C4); auto.
    { right. apply -> in_rev. now apply I. }
    exists c. split; [exact C1|]. split; [exact C2|]. split; [exact C3|].
    destruct (cb_leaf _ _ _ _ C c C1 C3) as (L1 & _). rewrite L1, DI in C4. exact C4.
  - intros n Hn Nn. exists (o n). split; [now apply SF|]. intros c Hc Ac Rc.
    destruct (cb_new _ _ _ _ C n Hn Nn) as (_ & _ & _ & BD). destruct (BD c Hc Ac Rc) as (B1 & B2). split; [exact B2|exact B1].
  - intros c Hc. destruct (cb_cover _ _ _ _ C c Hc) as (j & Hj & B).
    destruct (in_dec Nat.eq_dec j (g_nodes g)) as [Hj0|Nj].
    + left. destruct B as [B|(B & _)]; [|contradiction]. destruct (cb_old _ _ _ _ C j Hj Hj0) as (Oj & _). congruence.
    + right. exists j, (o j). split; [exact Hj|]. split; [now apply SF|]. destruct B as [B|(_ & B)]; auto.
Qed.
Print Assumptions C267_combined.

(** The two passes one after the other, as [from_labeler] runs them, on a fresh graph: a finite
    reducible node that is left has a leaf deeper than the cutoff times its own original value range,
    and the nodes that were collapsed had only shallow leaves in the original graph. *)
Lemma nearest_up g (K : nat -> Prop) k c : (forall q, K q \/ ~ K q) -> ancestor g k c -> K k ->
  exists p, nearest g K c p /\ (p = k \/ ancestor g k p).
Proof.
  intros DK A Kk. induction A as [c E|c q E A IH].
  - exists k. split; [now apply near_parent|now left].
  - destruct (DK q) as [Kq|Kq].
    + exists q. split; [now apply near_parent|now right].
    + destruct IH as (p & P1 & P2). exists p. split; [now apply (near_up g K c q)|exact P2].
Qed.

Lemma pruned_ancestor g g1 : pruned g g1 -> forall m c k, (pos (g_nodes g1) c <= m)%nat -> In c (g_nodes g1) ->
  In k (g_nodes g1) -> ancestor g k c -> ancestor g1 k c.
Proof.
  intros P. pose proof (pr_wf g g1 P) as W1. induction m as [|m IH]; intros c k Hm Hc Hk A.
  all: destruct (nearest_up g (fun q => In q (g_nodes g1)) k c) as (p & NP & B); auto;
    [intro q; destruct (in_dec Nat.eq_dec q (g_nodes g1)); auto|].
  all: assert (PP : parent_of g1 c = Some p)
    by (pose proof (pr_parent g g1 P c Hc) as Q; destruct (parent_of g1 c) as [p'|];
        [f_equal; now apply (nearest_fun _ _ _ _ Q)|inversion NP; congruence]).
  all: destruct (wf_parent g1 W1 c p Hc PP) as (Hp & _ & BF & _);
    pose proof (before_pos _ _ _ (wf_nodup g1 W1) BF) as L.
  - lia.
  - destruct B as [->|B]; [now apply anc_parent|]. eapply anc_step; [exact PP|]. apply IH; auto. lia.
Qed.

Theorem C267_built : forall argsort fuel cutoff1 cutoff2 g g1 g2, sorts argsort -> well_formed g -> fresh g ->
  nested_values g ->
  (forall i p, In i (g_nodes g) -> parent_of g i = Some p -> (n_min (g_heap g p) <= n_min (g_heap g i))%Q) ->
  (forall i, In i (g_nodes g) -> reducible g i -> (n_min (g_heap g i) < n_max (g_heap g i))%Q) ->
  remove_shallow argsort cutoff1 g = Done g1 -> combine_shallow argsort fuel cutoff2 g1 = Done g2 ->
  (forall i, In i (g_nodes g2) -> reducible g2 i -> In i (g_nodes g1) /\ reducible g i /\
     (n_infinite (g_heap g i) = false ->
      exists c, In c (g_nodes g2) /\ ancestor g2 i c /\ ~ reducible g2 c /\
        (cutoff2 < (n_max (g_heap g2 c) - n_min (g_heap g2 c)) / (n_max (g_heap g i) - n_min (g_heap g i)))%Q)) /\
  (forall n, In n (g_nodes g2) -> ~ In n (g_nodes g1) -> exists k, In k (g_nodes g) /\ stands_for g1 g2 n k /\
     forall c, In c (g_nodes g) -> ancestor g k c -> ~ reducible g c ->
       ((n_max (g_heap g c) - n_min (g_heap g c)) / (n_max (g_heap g k) - n_min (g_heap g k)) <= cutoff2)%Q).
Proof.
  intros argsort fuel cutoff1 cutoff2 g g1 g2 S W F M1 M2 PD E1 E2.
  destruct (sorted_reducible_ok argsort g S (wf_nodup g W)) as (N & I).
  pose proof (sorted_reducible_sorted argsort g S) as SS. unfold remove_shallow in E1.
  assert (HR : forall h t, sorted_reducible argsort g = h :: t -> parent_of g h = None)
    by (intros h t; now apply head_root).
  set (l := sorted_reducible argsort g) in *.
  assert (AM : forall x q, In x (tl l) -> ancestor g q x -> (n_min (g_heap g q) < n_min (g_heap g x))%Q)
    by (intros x q Hx A; apply tl_in, I in Hx as (Hx & Rx); now apply (anc_min g W M1)).
  destruct (prune_loop cutoff1 g (tl l) g g1) as (P & K1 & K2 & _ & K3); auto.
  { now apply pruned_refl. } { now apply tl_nodup. } { intros x Hx. now apply I, tl_in. }
  { destruct l; [exact SS|]. cbn [map tl] in *. now apply StronglySorted_inv in SS. }
  pose proof (pr_wf g g1 P) as W1. pose proof (pr_static g g1 P) as ST.
  assert (RED : forall j, reducible g1 j <-> reducible g j) by (intro j; unfold reducible; now rewrite (static_red g g1 j ST)).
  assert (ANC : forall i p, In i (g_nodes g1) -> parent_of g1 i = Some p ->
    nearest g (fun q => In q (g_nodes g1)) i p).
  { intros i p Hi Pi. pose proof (pr_parent g g1 P i Hi) as Q. now rewrite Pi in Q. }
  assert (DS : forall j, In j (g_nodes g1) -> depth_shown g1 j = (n_max (g_heap g j) - n_min (g_heap g j))%Q)
    by (intros j Hj; now apply (pruned_shown g g1)).
  assert (ALE : forall q i, ancestor g q i -> In i (g_nodes g) -> (n_min (g_heap g q) <= n_min (g_heap g i))%Q).
  { intros q i A. induction A as [i Pa|i p Pa A IH]; intro Hi; [now apply M2|].
    destruct (wf_parent g W i p Hi Pa) as (Hp & _). pose proof (M2 i p Hi Pa). specialize (IH Hp). lra. }
  destruct (C267_combined argsort fuel cutoff2 g1 g2 S W1) as (R1 & R2 & _).
  - intros i p Hi Ri Pi. rewrite !(static_min g g1 _ ST). apply (anc_min g W M1); [|auto|now apply RED].
    exact (nearest_anc _ _ _ _ (ANC i p Hi Pi)).
  - intros i p Hi Pi. rewrite !(static_min g g1 _ ST). apply ALE; [|auto].
    exact (nearest_anc _ _ _ _ (ANC i p Hi Pi)).
  - intros i p Hi Ri Pi. pose proof (ANC i p Hi Pi) as NP.
    assert (Hil : In i l) by (apply I; split; [auto|now apply RED]).
    assert (Hit : In i (tl l)).
    { destruct l as [|h t]; [destruct Hil|]. destruct Hil as [<-|H]; [exfalso|exact H].
      specialize (HR h t eq_refl). inversion NP; congruence. }
    destruct (K3 i Hit) as (_ & p' & NP' & _ & D & _). now rewrite (nearest_fun _ _ _ _ NP _ NP').
  - intros i Hi Ri. rewrite DS by exact Hi. rewrite RED in Ri. rewrite (static_min g g1 i ST).
    now rewrite (pr_leaf g g1 P i Hi Ri).
  - intros i Hi Ri. rewrite DS by exact Hi. specialize (PD i (K1 i Hi)). rewrite RED in Ri. specialize (PD Ri). lra.
  - exact E2.
  - split.
    + intros i Hi Ri. destruct (R1 i Hi Ri) as (A1 & A2 & A3 & A4 & A5). split; [exact A1|]. split; [now apply RED|].
      intro Fi. rewrite <- (static_inf g g1 i ST) in Fi. destruct (A5 Fi) as (c & C1 & C2 & C3 & C4).
      exists c. rewrite (DS i A1) in C4. auto.
    + intros n Hn Nn. destruct (R2 n Hn Nn) as (k & SF & B). pose proof (sf_old _ _ _ _ SF) as Hk.
      exists k. split; [auto|]. split; [exact SF|]. intros c Hc Ac Rc.
      assert (Hc1 : In c (g_nodes g1)) by (apply K2; [exact Hc|]; intro H; apply tl_in, I in H; tauto).
      destruct (B c Hc1) as (B1 & _); [now apply (pruned_ancestor g g1 P _ c k (le_n _))|now rewrite RED|].
      rewrite (DS k Hk), (static_min g g1 c ST), (pr_leaf g g1 P c Hc1 Rc) in B1. exact B1.
Qed.
Print Assumptions C267_built.

(** Node 3 (2-4) of the example has the leaves 4-5 and 4-9: with the cutoff 1 one leaf is deeper
    (ratio 5/2) and nothing happens; with the cutoff 3 it is collapsed. *)
Definition ex_pruned : graph := oget_graph (remove_shallow sort_idx (15 # 100) ex_prune).
Example C267_ex_kept : show (combine_shallow sort_idx 9 1 ex_pruned) = show (Done ex_pruned).
Proof. vm_compute. reflexivity. Qed.
Example C267_ex_collapsed : show (combine_shallow sort_idx 9 3 ex_pruned) = Some
  ([(0%nat, 0, true, [0; 1; 2; 3]%nat, None, [2; 4; 7]%nat, 1%Q); (2%nat, 2, false, [3]%nat, Some 0%nat, [], 7%Q);
    (4%nat, 4, false, [2]%nat, Some 0%nat, [], 6%Q); (7%nat, 3, false, [0; 1]%nat, Some 0%nat, [], 9%Q)], [0%nat]).
Proof. vm_compute. reflexivity. Qed.
