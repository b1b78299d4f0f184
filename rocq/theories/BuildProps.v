(** Theorems about the bifurcation graph of [from_labeler]. *)
From Coq Require Import QArith Lqa Sorted.
From Verif Require Import Base GridModel RootsModel UnionModel LabelsModel NodesModel NodesSpec NodesProps DictModel DictSpec CoordMerge SplitModel SplitSpec SplitProofs SplitTop BuildModel BuildProofs BuildTop.
From Verif Require Import UnionSpec BifModel BifSpec BifTop BifProps.
Local Open Scope Z_scope.

(** C168: for nested domains with parents first the graph has one node per domain, in order, with its key, basins, values,
    dimensionality, atoms, parent, children and subtype, and is well formed. *)
Theorem C168_construct n type maxima charges volumes : nested n ->
  exists f, construct n type maxima charges volumes = Done f /\ shows_domains n f /\ dims_agree f.
Proof.
  intros N. destruct (construct_ok n type maxima charges volumes N) as (f & E & SD). exists f. split; [exact E|]. split; [exact SD|].
  intros i I. rewrite (sd_nodes _ _ SD) in I. apply in_seq in I. destruct (nth_error n i) as [[D a]|] eqn:EI; [|apply nth_error_None in EI; lia].
  destruct (sd_node _ _ SD i D a EI) as (_ & _ & _ & IN & _). destruct (sd_pay _ _ SD i D a EI) as (-> & _).
  destruct (n_infinite _), (Z.ltb_spec 0 (m_dim D)); auto; [assert (0 < m_dim D) by (now apply IN); lia|exfalso; destruct IN as [_ IN]; specialize (IN H); discriminate].
Qed.

Section Graph.
Variables (fuel : nat) (order : list nat) (dimf : Q -> nat -> Z) (maxref : nat -> Q) (min_data : Q) (cs : list conn) (nb : nat) (recs : list bdom).
Variables (doms : list domain) (steps : list step).
Hypotheses (CO : conns_ok cs nb) (FU : (nb <= fuel)%nat) (OR : forall i, In i order <-> (i < nb)%nat) (NE : cs <> []) (MD : forall i j v, In (i, j, v) cs -> (min_data < v)%Q).
Hypotheses (FB : find_domain_bifurcations fuel order dimf maxref min_data cs nb = Done recs) (PO : passed_on recs doms) (CV : SplitSpec.covers steps doms).

(** C169: from the connections of basins to the graph.  The graph is well formed, its nodes are connected components of the
    basins at connection values, every component is a node, and each node ends where its children begin. *)
Theorem C169_graph type maxima charges volumes : exists n f, get_domains_surrounding_atoms doms steps = Done n /\ construct n type maxima charges volumes = Done f /\
  well_formed (f_graph f) /\ shows_domains n f /\
  (forall i, In i (g_nodes (f_graph f)) -> exists a b v, In (a, b, v) cs /\ component (joins cs v) (basins_of (f_graph f) i)) /\
  (forall w c, component (joins cs w) c -> exists i, In i (g_nodes (f_graph f)) /\ basins_of (f_graph f) i = c) /\
  (forall i p, In i (g_nodes (f_graph f)) -> parent_of (f_graph f) i = Some p -> (n_max (g_heap (f_graph f) p) == n_min (g_heap (f_graph f) i))%Q).
Proof.
  destruct (C36_forest fuel order dimf maxref min_data cs nb CO FU OR NE) as (recs' & E & F); [intros i j v H; specialize (MD i j v H); lra|]. rewrite FB in E. injection E as <-.
  destruct (forest_tight cs maxref min_data recs doms F MD PO) as [T ND]. destruct (split_ok doms T steps CV) as (n & origin & EN & L & R & AL & CH & _).
  destruct (construct_ok n type maxima charges volumes (split_nested doms n origin ND L R CH)) as (f & EF & SD). exists n, f. split; [exact EN|]. split; [exact EF|]. split; [apply (sd_wf _ _ SD)|]. split; [exact SD|].
  assert (GET : forall i, In i (g_nodes (f_graph f)) -> exists d D E a, nth_error n i = Some (E, a) /\ nth_error doms d = Some D /\ version n origin d i E a).
  { intros i I. rewrite (sd_nodes _ _ SD) in I. apply in_seq in I. destruct (nth_error n i) as [[E a]|] eqn:EI; [|apply nth_error_None in EI; lia]. destruct (nth_error origin i) as [d|] eqn:OI; [|apply nth_error_None in OI; lia]. destruct (nth_error doms d) as [D|] eqn:ED; [|apply nth_error_None in ED; apply R in OI; lia]. exists d, D, E, a. split; [reflexivity|]. split; [exact ED|split; assumption]. }
  split; [|split].
  - intros i I. destruct (GET i I) as (d & D & E & a & EI & ED & V). destruct (sd_node _ _ SD i E a EI) as (_ & _ & B & _). unfold basins_of. rewrite B. destruct (CH d D i E a ED V) as (BE & _). rewrite BE. destruct (passed_nth recs doms PO d D ED) as (r & ER & BR & _). rewrite BR. apply (fo_comp _ _ _ _ F), (nth_error_In _ _ ER).
  - intros w c C. destruct (fo_all _ _ _ _ F w c C) as (r & IR & BR). destruct (passed_back recs doms PO r IR) as (d & D & ED & BD). destruct (AL d (nth_error_len _ _ _ ED)) as (k & OK). destruct (nth_error n k) as [[E a]|] eqn:EK; [|apply nth_error_None in EK; apply nth_error_len in OK; lia].
    exists k. split; [rewrite (sd_nodes _ _ SD); apply in_seq; apply nth_error_len in EK; lia|]. destruct (sd_node _ _ SD k E a EK) as (_ & _ & B & _). unfold basins_of. rewrite B. destruct (CH d D k E a ED (conj EK OK)) as (BE & _). congruence.
  - intros i p I PI. destruct (GET i I) as (d & D & E & a & EI & ED & V). destruct (sd_node _ _ SD i E a EI) as (_ & _ & _ & _ & MI & _ & PR & PN & _). unfold parent_of in PI. rewrite MI.
    assert (K : exists F b, m_parent E = Z.of_nat p /\ nth_error n p = Some (F, b) /\ (m_max F == m_min E)%Q).
    { destruct (CH d D i E a ED V) as (_ & _ & _ & _ & [(j & G & b & [VG _] & _ & _ & PE & MG)|(_ & _ & [[_ PE]|(q & p' & G & b & _ & [VG _] & _ & _ & PE & MG)])]).
      - rewrite (PN j PE) in PI. injection PI as <-. exists G, b. split; [exact PE|]. split; [exact VG|]. now rewrite MG.
      - rewrite (PR PE) in PI. discriminate.
      - rewrite (PN p' PE) in PI. injection PI as <-. exists G, b. auto. }
    destruct K as (G & b & _ & EP & M). destruct (sd_node _ _ SD p G b EP) as (_ & _ & _ & _ & _ & MX & _). now rewrite MX.
Qed.

(** A basin whose connections to others are all below one of its own ends up alone in an irreducible node, and the
    simplification of the graph loses none. *)
Theorem C169_leaves type maxima charges volumes n f x w : get_domains_surrounding_atoms doms steps = Done n -> construct n type maxima charges volumes = Done f ->
  In (x, x, w) cs -> (forall i j v, In (i, j, v) cs -> i <> j -> i = x \/ j = x -> (v < w)%Q) ->
  (exists i, In i (g_nodes (f_graph f)) /\ ~ reducible (f_graph f) i /\ basins_of (f_graph f) i = [x]) /\
  forall argsort fuel c1 c2 g', sorts argsort -> simplify argsort fuel c1 c2 (f_graph f) = Done g' -> well_formed g' /\ leaf_basin g' x.
Proof.
  intros EN EF XW LOW. destruct (C169_graph type maxima charges volumes) as (n' & f' & EN' & EF' & W & SD & CMP & ALL & _). rewrite EN in EN'. injection EN' as <-. rewrite EF in EF'. injection EF' as <-.
  assert (ONLY : forall j, In (x, j) (joins cs w) \/ In (j, x) (joins cs w) -> j = x).
  { intros j H. destruct (Nat.eq_dec j x) as [|N]; [assumption|exfalso]. unfold joins in H. destruct H as [H|H]; apply in_map_iff in H as ([[i' j'] v] & EQ & H); cbn [fst] in EQ; injection EQ as -> ->; apply filter_In in H as [H V]; apply Qle_bool_iff in V; cbn [snd] in V; [specialize (LOW x j v H ltac:(congruence) ltac:(auto))|specialize (LOW j x v H N ltac:(auto))]; lra. }
  assert (JX : In (x, x) (joins cs w)). { unfold joins. apply in_map_iff. exists (x, x, w). split; [reflexivity|]. apply filter_In. split; [exact XW|]. apply Qle_bool_iff. cbn. lra. }
  assert (CX : component (joins cs w) [x]).
  { split; [discriminate|]. split; [repeat constructor|]. intros i [<-|[]]. split; [exists x; auto|]. intros j. split; [intros [<-|[]]; split; [exists x; auto|apply conn_refl]|]. intros [_ C].
    assert (K : forall a b, connected (joins cs w) a b -> (a = x -> b = x) /\ (b = x -> a = x)).
    { clear -ONLY. induction 1 as [i|i j H|i j C IH|i j k C1 IH1 C2 IH2]; [tauto| |tauto|tauto]. split; intros ->; apply ONLY; auto. }
    left. symmetry. now apply (K x j C). }
  assert (LEAF : exists i, In i (g_nodes (f_graph f)) /\ ~ reducible (f_graph f) i /\ basins_of (f_graph f) i = [x]).
  { destruct (ALL w [x] CX) as (i & II & BI). assert (D : forall m i, (length n - i <= m)%nat -> In i (g_nodes (f_graph f)) -> basins_of (f_graph f) i = [x] -> exists j, In j (g_nodes (f_graph f)) /\ ~ reducible (f_graph f) j /\ basins_of (f_graph f) j = [x]).
    { induction m as [|m IH]; intros j LM IJ BJ; [rewrite (sd_nodes _ _ SD) in IJ; apply in_seq in IJ; lia|]. destruct (n_red (g_heap (f_graph f) j)) eqn:RJ; [|exists j; split; [exact IJ|]; split; [unfold reducible; congruence|exact BJ]].
      pose proof IJ as IJ'. rewrite (sd_nodes _ _ SD) in IJ'. apply in_seq in IJ'. destruct (nth_error n j) as [[E a]|] eqn:EJ; [|apply nth_error_None in EJ; lia]. destruct (sd_node _ _ SD j E a EJ) as (_ & RC & _). apply RC in RJ as (c & F & b & EC & PC). pose proof (nth_error_len _ _ _ EC) as LC.
      destruct (sd_node _ _ SD c F b EC) as (_ & _ & _ & _ & _ & _ & _ & PN & _). specialize (PN j PC). assert (IC : In c (g_nodes (f_graph f))) by (rewrite (sd_nodes _ _ SD); apply in_seq; lia).
      destruct (wf_parent _ W c j IC PN) as (_ & _ & BF & INC). apply (IH c); [|exact IC|].
      - destruct BF as (l1 & l2 & EQ & I1). rewrite (sd_nodes _ _ SD) in EQ. pose proof (sorted_seq (length n) 0) as SS. rewrite EQ in SS. clear -SS I1 LM IJ' LC. assert (j < c)%nat; [|lia]. induction l1 as [|y l1 IHl]; [destruct I1|]. cbn in SS. apply StronglySorted_inv in SS as [SS FA]. destruct I1 as [->|I1]; [|now apply IHl]. rewrite Forall_forall in FA. apply FA. apply in_or_app. right. now left.
      - rewrite BJ in INC. destruct (CMP c IC) as (a' & b' & v & _ & (NB & SB & _)). destruct (basins_of (f_graph f) c) as [|y [|z t]]; [congruence| |].
        + destruct (INC y (or_introl eq_refl)) as [<-|[]]. reflexivity.
        + exfalso. destruct (INC y (or_introl eq_refl)) as [<-|[]]. destruct (INC z (or_intror (or_introl eq_refl))) as [<-|[]]. apply StronglySorted_inv in SB as [_ FA]. rewrite Forall_forall in FA. specialize (FA x (or_introl eq_refl)). lia. }
    apply (D (length n) i); [lia|exact II|exact BI]. }
  split; [exact LEAF|]. intros argsort fuel' c1 c2 g' SO SI. unfold simplify in SI. destruct (remove_shallow argsort c1 (f_graph f)) as [g1| |] eqn:E1; try discriminate. cbn [obind] in SI.
  destruct (C39_prune argsort c1 _ g1 SO W E1) as (W1 & L1 & _). destruct (C39_combine argsort fuel' c2 g1 g' SO W1 SI) as (W2 & L2). split; [exact W2|]. apply L2, L1. destruct LEAF as (i & I & R & B). exists i. split; [exact I|]. split; [exact R|]. rewrite B. now left.
Qed.
End Graph.
Print Assumptions C168_construct.
Print Assumptions C169_graph.
Print Assumptions C169_leaves.

(** ** Example: the three basins of [ex_cs], with one atom in basin 2 and another that basins 0 and 1 surround together. *)
Definition ex_recs : list bdom :=
  [BD [0; 1; 2]%nat 0 (Some (1#1)) 3 (-1); BD [0; 1]%nat (1#1) (Some (2#1)) 0 0; BD [2]%nat (1#1) (Some (3#1)) 0 0;
   BD [0]%nat (2#1) (Some (5#1)) 0 1; BD [1]%nat (2#1) (Some (4#1)) 0 1].
Definition ex_doms : list domain :=
  [Dm [0; 1; 2]%nat 0 (1#1) 3 (-1); Dm [0; 1]%nat (1#1) (2#1) 0 0; Dm [2]%nat (1#1) (3#1) 0 0; Dm [0]%nat (2#1) (5#1) 0 1; Dm [1]%nat (2#1) (4#1) 0 1].
Definition ex_steps : list step := [(0%Q, [[0]; [0]]%nat); (1%Q, [[1]; [2]]%nat); ((3 # 2)%Q, [[]; [2]]%nat); (2%Q, [[]; [2]]%nat); ((5 # 2)%Q, [[]; []])].
Example ex_hyps : find_domain_bifurcations 3 [2; 0; 1]%nat ex_dim (fun b => inject_Z (5 - Z.of_nat b)) 0 ex_cs 3 = Done ex_recs /\ (forall i j v, In (i, j, v) ex_cs -> (0 < v)%Q) /\ passed_on ex_recs ex_doms /\ SplitSpec.covers ex_steps ex_doms.
Proof.
  split; [exact C36_example|]. split; [|split].
  - intros i j v H. cbn in H. repeat (destruct H as [[= <- <- <-]|H]; [reflexivity|]). destruct H.
  - repeat (apply Forall2_cons; [repeat split; cbn; congruence|]). constructor.
  - split; [cbn; repeat constructor|]. intros D H. cbn in H. repeat (destruct H as [<-|H]; [eexists; split; [|reflexivity]; cbn; auto 8|]). destruct H.
Qed.
(** Domain 1 (basins 0 and 1) loses its atom at 3/2 and domain 2 at 5/2; both are split there. *)
Definition ex_n : news := match get_domains_surrounding_atoms ex_doms ex_steps with Done n => n | _ => [] end.
Definition ex_f : outcome full := construct ex_n 0 [] [] [].
Definition ex_view : list (list nat * option nat * list nat * (list Z * option Z)) :=
  match ex_f with Done f => map (fun i => (basins_of (f_graph f) i, parent_of (f_graph f) i, children_of (f_graph f) i, (y_atoms (f_pay f i), y_subtype (f_pay f i)))) (g_nodes (f_graph f)) | _ => [] end.
Example ex_built : ex_view =
  [([0; 1; 2]%nat, None, [1; 2]%nat, ([0; 1], Some sub_root)); ([0; 1]%nat, Some 0%nat, [3]%nat, ([0], Some sub_dom));
   ([2]%nat, Some 0%nat, [6]%nat, ([1], Some sub_dom)); ([0; 1]%nat, Some 1%nat, [4; 5]%nat, ([], Some sub_atom));
   ([0]%nat, Some 3%nat, [], ([], Some sub_point)); ([1]%nat, Some 3%nat, [], ([], Some sub_point)); ([2]%nat, Some 2%nat, [], ([], Some sub_point))].
Proof. vm_compute. reflexivity. Qed.
Example ex_alone : In (2, 2, 3#1)%nat ex_cs /\ forall i j v, In (i, j, v) ex_cs -> i <> j -> i = 2%nat \/ j = 2%nat -> (v < 3#1)%Q.
Proof. split; [cbn; auto|]. intros i j v H N X. cbn in H. repeat (destruct H as [[= <- <- <-]|H]; [try (now destruct N); reflexivity || (destruct X; discriminate)|]). destruct H. Qed.
