(** Which nodes [_combine_shallow_irreducible_nodes] collapses. *)
From Coq Require Import QArith Lqa.
From Verif Require Import Base RootsModel UnionModel LabelsModel NodesModel NodesSpec NodesProofs NodesEdit NodesTop
  CoordMerge NodesPrune.
Local Open Scope Z_scope.

(** ** What a collapse leaves alone *)
Lemma remove_all_depth r : forall g g', remove_all g r = Done g' -> forall j, n_depth (g_heap g' j) = n_depth (g_heap g j).
Proof.
  induction r as [|x t IH]; intros g g' E j; cbn [remove_all] in E; [now injection E as <-|].
  destruct (remove g x) as [g1| |] eqn:E1; try discriminate. cbn [obind] in E.
  rewrite (IH g1 g' E j). now apply (remove_depth g x g1).
Qed.

Lemma remove_all_max r : forall g g', well_formed g -> NoDup r ->
  (forall x, In x r -> In x (g_nodes g) /\ parent_of g x <> None) ->
  (forall r1 x r2, r = r1 ++ x :: r2 -> incl (children_of g x) r1) ->
  remove_all g r = Done g' ->
  forall j, (forall x, In x r -> parent_of g x <> Some j) -> n_max (g_heap g' j) = n_max (g_heap g j).
Proof.
  induction r as [|x t IH]; intros g g' W N HX HC E j Hj; cbn [remove_all] in E; [now injection E as <-|].
  inversion N; subst. destruct (HX x (or_introl eq_refl)) as (Hx & Px).
  assert (Cx : children_of g x = []).
  { specialize (HC [] x t eq_refl). destruct (children_of g x) as [|c l]; [reflexivity|].
    destruct (HC c (or_introl eq_refl)). }
  destruct (remove_ok g x W Hx) as (g1 & E1 & EF); [now right|].
  rewrite E1 in E. cbn [obind] in E. pose proof (eff_wf g g1 x W Hx EF) as W1.
  assert (P1 : forall j, parent_of g1 j = parent_of g j).
  { intro k. rewrite (e_parent g g1 x EF k), Cx. reflexivity. }
  assert (N1 : forall j, In j (g_nodes g1) <-> In j (g_nodes g) /\ j <> x).
  { intro k. rewrite (e_nodes g g1 x EF). apply in_without. }
  destruct (parent_of g x) as [p|] eqn:PX; [|congruence].
  assert (C1 : forall j, j <> x -> incl (children_of g1 j) (children_of g j)).
  { intros k Hk. rewrite (e_children g g1 x EF k Hk), PX, Cx, app_nil_r.
    destruct (Nat.eqb_spec p k); [subst|apply incl_refl]. intros c Hc. now apply in_without in Hc. }
  rewrite (IH g1 g'); auto.
  - apply (e_max g g1 x EF). apply Hj. now left.
  - intros y Hy. rewrite N1, P1. destruct (HX y (or_intror Hy)) as (A & B). repeat split; auto.
    intros ->. contradiction.
  - intros r1 y r2 ->. intros c Hc.
    assert (Hy : y <> x) by (intros ->; apply H1; apply in_or_app; right; now left).
    assert (Hy' : In y (g_nodes g)) by (apply HX; right; apply in_or_app; right; now left).
    assert (Hc1 : c <> x).
    { intros ->. apply (wf_children g1 W1 y x) in Hc as (Hc & _); [|apply N1; now split].
      apply N1 in Hc. tauto. }
    apply (C1 y Hy) in Hc. apply (HC (x :: r1) y r2 eq_refl) in Hc. destruct Hc as [->|Hc]; [contradiction|exact Hc].
  - intros y Hy. rewrite P1. apply Hj. now right.
Qed.

Lemma add_heap g red basins inf mn mx key parent g' n : add_node g red basins inf mn mx key parent = Done (g', n) ->
  n = g_next g /\ n_depth (g_heap g' n) = None /\
  forall j, j <> n -> n_depth (g_heap g' j) = n_depth (g_heap g j) /\ n_max (g_heap g' j) = n_max (g_heap g j).
Proof.
  unfold add_node. intro E.
  destruct parent as [p|].
  - destruct (n_red (g_heap g p)); [|discriminate]. cbn [obind] in E. injection E as <- <-.
    split; [reflexivity|]. cbn. rewrite hset_same. split; [reflexivity|].
    intros j Hj. rewrite hset_other by congruence. rewrite hset_eq. destruct (Nat.eqb_spec p j); [subst|]; split; reflexivity.
  - cbn [obind] in E. injection E as <- <-.
    split; [reflexivity|]. cbn. rewrite hset_same. split; [reflexivity|].
    intros j Hj. rewrite hset_other by congruence. split; reflexivity.
Qed.

Lemma make_keep fuel g i deep g' n : well_formed g -> In i (g_nodes g) -> reducible g i ->
  deep_children fuel g i = Done deep -> make_irreducible fuel g i = Done (g', n) ->
  n_depth (g_heap g' n) = None /\
  forall j, j <> n -> n_depth (g_heap g' j) = n_depth (g_heap g j) /\
    (j <> i -> ~ (In j (g_nodes g) /\ ancestor g i j) -> parent_of g i <> Some j ->
     n_max (g_heap g' j) = n_max (g_heap g j)).
Proof.
  intros W Hi Ri D E. destruct (deep_children_any g i fuel deep W Hi D) as (D1 & D2 & D3).
  assert (Nid : ~ In i deep).
  { intro H. apply D2 in H as (_ & H). now apply (no_self_ancestor g i W Hi). }
  assert (HY : forall x, In x (rev deep) -> In x (g_nodes g) /\ parent_of g x <> None).
  { intros x Hx. apply in_rev in Hx. pose proof Hx as Hx'. apply D2 in Hx' as (Hn & A). split; [exact Hn|].
    inversion A; congruence. }
  assert (HC : forall r1 x r2, rev deep = r1 ++ x :: r2 -> incl (children_of g x) r1).
  { intros r1 x r2 Er c Hc.
    assert (Hx : In x deep) by (apply in_rev; rewrite Er; apply in_or_app; right; now left).
    pose proof Hx as Hx'. apply D2 in Hx' as (Hn & A).
    apply (wf_children g W x c Hn) in Hc as (Hc & Pc).
    assert (Hcd : In c deep) by (apply D2; split; [exact Hc|]; econstructor 2; eauto).
    destruct (D3 c x Hcd Pc) as [->|B]; [contradiction|].
    assert (Ed : deep = rev r2 ++ x :: rev r1).
    { rewrite <- (rev_involutive deep), Er, rev_app_distr. cbn. rewrite <- app_assoc. reflexivity. }
    destruct B as (l1 & l2 & Ed' & Hx1).
    apply in_rev. rewrite Ed in Hcd. apply in_app_iff in Hcd as [Hcd|[Hcd|Hcd]]; [exfalso| |exact Hcd].
    - assert (B2 : before deep c x) by (exists (rev r2), (rev r1); split; [exact Ed|exact Hcd]).
      assert (B1 : before deep x c) by (exists l1, l2; split; assumption).
      pose proof (before_pos _ _ _ D1 B1). pose proof (before_pos _ _ _ D1 B2). lia.
    - subst c. exfalso. now apply (wf_parent_neq g x x W Hn). }
  destruct (remove_all_ok i (rev deep) g W) as (g1 & E1 & W1 & X1 & R1 & N1 & NF1 & S1 & P1 & CK1 & KK1 & CO1); auto.
  { now apply NoDup_rev. } { now rewrite <- in_rev. }
  assert (Hi1 : In i (g_nodes g1)) by (apply N1; split; [exact Hi|now rewrite <- in_rev]).
  assert (Ri1 : reducible g1 i) by (unfold reducible; rewrite (static_red g g1 i S1); exact Ri).
  destruct (remove_ok g1 i W1 Hi1 (or_introl Ri1)) as (g2 & E2 & EF).
  unfold make_irreducible in E. unfold reducible in Ri. rewrite Ri in E. cbn [negb] in E. rewrite D in E. cbn [obind] in E.
  rewrite E1 in E. cbn [obind] in E. rewrite E2 in E. cbn [obind] in E.
  apply add_heap in E as (_ & AD & AH). split; [exact AD|]. intros j Hj. destruct (AH j Hj) as (A1 & A2).
  split.
  - rewrite A1, (remove_depth g1 i g2 E2 j). now apply (remove_all_depth (rev deep)).
  - intros Nji Na Np. rewrite A2. rewrite (e_max g1 g2 i EF j) by (now rewrite P1).
    apply (remove_all_max (rev deep) g g1 W); auto; [now apply NoDup_rev|].
    intros x Hx P. apply in_rev in Hx. destruct (D3 x j Hx P) as [->|B]; [congruence|].
    apply before_in in B as (B & _). apply D2 in B. tauto.
Qed.

(** ** The test of the children *)
Lemma all_shallow_spec cutoff depth l : forall g g' s, all_shallow cutoff depth g l = Done (g', s) ->
  (forall j, shown_depth g' j = shown_depth g j) /\
  (forall j, n_depth (g_heap g j) <> None -> n_depth (g_heap g' j) <> None) /\
  (if s then forall c, In c l -> ~ reducible g c -> (shown_depth g c / depth <= cutoff)%Q
   else exists c, In c l /\ ~ reducible g c /\ (cutoff < shown_depth g c / depth)%Q).
Proof.
  induction l as [|c t IH]; intros g g' s E; cbn [all_shallow] in E.
  { injection E as <- <-. repeat split; auto. intros c []. }
  destruct (n_red (g_heap g c)) eqn:R.
  { destruct (IH g g' s E) as (A & B & C). repeat split; auto. destruct s.
    - intros d [<-|Hd] Rd; [unfold reducible in Rd; congruence|auto].
    - destruct C as (d & C1 & C2). exists d. split; [now right|exact C2]. }
  pose proof (get_depth_val g c) as V. pose proof (get_depth_shown g c) as SH. pose proof (get_depth_cache g c) as CA.
  pose proof (get_depth_sim g c) as (_ & _ & SS & _).
  destruct (get_depth g c) as [g1 d]. cbn [fst snd] in *. subst d.
  assert (MO : forall j, n_depth (g_heap g j) <> None -> n_depth (g_heap g1 j) <> None).
  { intros j H. rewrite CA. destruct (Nat.eqb c j); [discriminate|exact H]. }
  destruct (Qeq_bool depth 0); [discriminate|]. destruct (Qltb cutoff (shown_depth g c / depth)) eqn:Q.
  - injection E as <- <-. split; [exact SH|]. split; [exact MO|]. exists c. split; [now left|]. split; [unfold reducible; congruence|].
    now apply Qltb_lt.
  - destruct (IH g1 g' s E) as (A & B & C). split; [intro j; now rewrite A, SH|]. split; [auto|]. destruct s.
    + intros d [<-|Hd] Rd.
      * apply Qnot_lt_le. intro L. apply Qltb_lt in L. congruence.
      * rewrite <- SH. apply C; [exact Hd|]. unfold reducible in *. now rewrite (static_red g g1 d SS).
    + destruct C as (d & C1 & C2 & C3). exists d. split; [now right|]. unfold reducible in *.
      rewrite (static_red g g1 d SS) in C2. rewrite SH in C3. now split.
Qed.

Lemma sim_ancestor g g' a x : sim g g' -> ancestor g a x <-> ancestor g' a x.
Proof.
  intros (_ & _ & _ & P & _). split; induction 1 as [i E|i p E A IH].
  - apply anc_parent. now rewrite P.
  - eapply anc_step; [rewrite P; exact E|exact IH].
  - apply anc_parent. now rewrite <- P.
  - eapply anc_step; [rewrite <- P; exact E|exact IH].
Qed.

Lemma anc_comparable g x k c : ancestor g x c -> ancestor g k c -> x = k \/ ancestor g x k \/ ancestor g k x.
Proof.
  induction 1 as [c E|c p E A IH]; intro K.
  - inversion K as [? E'|? p' E' A']; subst; rewrite E in E'; injection E' as <-; auto.
  - inversion K as [? E'|? p' E' A']; subst; rewrite E in E'; injection E' as <-; auto.
Qed.

Lemma anc_trans g a b c : ancestor g a b -> ancestor g b c -> ancestor g a c.
Proof. intros A. induction 1 as [c E|c p E B IH]; [eapply anc_step; eauto|eapply anc_step; eauto]. Qed.

Section Combine.
Variables (cutoff : Q) (g0 : graph).
Hypothesis W0 : well_formed g0.
Hypothesis M1 : forall i p, In i (g_nodes g0) -> reducible g0 i -> parent_of g0 i = Some p ->
  (n_min (g_heap g0 p) < n_min (g_heap g0 i))%Q.
Hypothesis M2 : forall i p, In i (g_nodes g0) -> parent_of g0 i = Some p ->
  (n_min (g_heap g0 p) <= n_min (g_heap g0 i))%Q.
Hypothesis CD : forall i p, In i (g_nodes g0) -> reducible g0 i -> parent_of g0 i = Some p ->
  n_depth (g_heap g0 p) <> None.
Hypothesis LD : forall i, In i (g_nodes g0) -> ~ reducible g0 i -> shown_depth g0 i = range_of g0 i.
Hypothesis PD : forall i, In i (g_nodes g0) -> reducible g0 i -> (0 < shown_depth g0 i)%Q.

Record combined (h : graph) (o : nat -> nat) : Prop := {
  cb_wf : well_formed h;
  cb_next : (g_next g0 <= g_next h)%nat;
  cb_org : forall j, In j (g_nodes h) -> In (o j) (g_nodes g0);
  cb_old : forall j, In j (g_nodes h) -> In j (g_nodes g0) -> o j = j /\
    n_red (g_heap h j) = n_red (g_heap g0 j) /\ n_infinite (g_heap h j) = n_infinite (g_heap g0 j);
  cb_same : forall j, In j (g_nodes h) -> key_of h j = key_of g0 (o j) /\ basins_of h j = basins_of g0 (o j) /\
    n_min (g_heap h j) = n_min (g_heap g0 (o j)) /\ parent_of h j = parent_of g0 (o j);
  cb_new : forall j, In j (g_nodes h) -> ~ In j (g_nodes g0) -> ~ reducible h j /\ reducible g0 (o j) /\
    n_infinite (g_heap g0 (o j)) = false /\
    forall c, In c (g_nodes g0) -> ancestor g0 (o j) c -> ~ reducible g0 c ->
      (n_max (g_heap g0 c) <= n_max (g_heap h j))%Q /\ (range_of g0 c / shown_depth g0 (o j) <= cutoff)%Q;
  cb_cover : forall c, In c (g_nodes g0) -> exists j, In j (g_nodes h) /\
    (o j = c \/ (~ In j (g_nodes g0) /\ ancestor g0 (o j) c));
  cb_apart : forall j j', In j (g_nodes h) -> In j' (g_nodes h) -> ~ In j' (g_nodes g0) -> ~ ancestor g0 (o j') (o j);
  cb_leaf : forall j, In j (g_nodes h) -> ~ reducible h j -> shown_depth h j = range_of h j /\
    (In j (g_nodes g0) -> n_max (g_heap h j) = n_max (g_heap g0 j));
  cb_red : forall j, In j (g_nodes h) -> reducible h j -> shown_depth h j = shown_depth g0 j /\
    (n_depth (g_heap g0 j) <> None -> n_depth (g_heap h j) <> None)
}.

Lemma combined_refl : combined g0 (fun j => j).
Proof.
  constructor; auto.
  - intros j Hj Nj. contradiction.
  - intros c Hc. exists c. auto.
Qed.

Lemma combined_sim h h2 o : combined h o -> sim h h2 -> (forall j, shown_depth h2 j = shown_depth h j) ->
  (forall j, n_depth (g_heap h j) <> None -> n_depth (g_heap h2 j) <> None) -> combined h2 o.
Proof.
  intros C S SH MO. pose proof (sim_wf _ _ S (cb_wf h o C)) as W2.
  destruct S as ((A1 & A2 & A3) & A4 & A5 & A6 & A7 & A8).
  assert (RD : forall j, reducible h2 j <-> reducible h j) by (intro j; unfold reducible; now rewrite (static_red h h2 j A5)).
  assert (RG : forall j, range_of h2 j = range_of h j) by (intro j; unfold range_of; now rewrite A8, (static_min h h2 j A5)).
  constructor; rewrite ?A2, ?A1; auto.
  - apply (cb_next h o C).
  - apply (cb_org h o C).
  - intros j Hj Hj0. rewrite (static_red h h2 j A5), (static_inf h h2 j A5). now apply (cb_old h o C).
  - intros j Hj. rewrite (static_key h h2 j A5), (static_basins h h2 j A5), (static_min h h2 j A5), A6. now apply (cb_same h o C).
  - intros j Hj Nj. rewrite RD, A8. now apply (cb_new h o C).
  - apply (cb_cover h o C).
  - apply (cb_apart h o C).
  - intros j Hj Rj. rewrite RD in Rj. rewrite SH, RG, A8. now apply (cb_leaf h o C).
  - intros j Hj Rj. rewrite RD in Rj. rewrite SH. destruct (cb_red h o C j Hj Rj) as (B1 & B2). split; auto.
Qed.

(** A reducible node is an old one. *)
Lemma red_old h o j : combined h o -> In j (g_nodes h) -> reducible h j -> In j (g_nodes g0) /\ o j = j /\ reducible g0 j.
Proof.
  intros C Hj Rj. destruct (in_dec Nat.eq_dec j (g_nodes g0)) as [H|H].
  - destruct (cb_old h o C j Hj H) as (A & B & _). unfold reducible in *. rewrite <- B. auto.
  - exfalso. now apply (cb_new h o C j Hj H).
Qed.

Lemma anc_drop h o a j : combined h o -> In j (g_nodes h) -> ancestor h a j -> ancestor g0 a (o j).
Proof.
  intros C Hj A. induction A as [j E|j p E A IH].
  - apply anc_parent. destruct (cb_same h o C j Hj) as (_ & _ & _ & P). congruence.
  - destruct (wf_parent h (cb_wf h o C) j p Hj E) as (Hp & Rp & _).
    destruct (red_old h o p C Hp Rp) as (_ & Op & _). specialize (IH Hp). rewrite Op in IH.
    eapply anc_step; [|exact IH]. destruct (cb_same h o C j Hj) as (_ & _ & _ & P). congruence.
Qed.

Lemma anc_lift h o a k : combined h o -> ancestor g0 a k -> forall j, In j (g_nodes h) -> o j = k -> ancestor h a j.
Proof.
  intros C A. induction A as [k E|k p E A IH]; intros j Hj <-; destruct (cb_same h o C j Hj) as (_ & _ & _ & P).
  - apply anc_parent. congruence.
  - rewrite E in P. destruct (wf_parent h (cb_wf h o C) j p Hj P) as (Hp & Rp & _).
    eapply anc_step; [exact P|]. apply IH; [exact Hp|]. now apply (red_old h o p C Hp Rp).
Qed.

Lemma div_le a b d : (0 < d)%Q -> (a <= b)%Q -> (b / d <= cutoff)%Q -> (a / d <= cutoff)%Q.
Proof.
  intros D L H. apply Qle_trans with (b / d)%Q; [|exact H]. unfold Qdiv. apply Qmult_le_compat_r; [exact L|].
  apply Qlt_le_weak. now apply Qinv_lt_0_compat.
Qed.

Lemma anc_le q i : ancestor g0 q i -> In i (g_nodes g0) -> (n_min (g_heap g0 q) <= n_min (g_heap g0 i))%Q.
Proof.
  induction 1 as [i E|i p E A IH]; intro Hi; [now apply M2|].
  destruct (wf_parent g0 W0 i p Hi E) as (Hp & _). pose proof (M2 i p Hi E). specialize (IH Hp). lra.
Qed.

(** Collapsing a shallow node. *)
Lemma combined_collapse fuel h o x deep h' n : combined h o -> In x (g_nodes h) -> reducible h x ->
  n_infinite (g_heap h x) = false -> deep_children fuel h x = Done deep -> make_irreducible fuel h x = Done (h', n) ->
  (forall c, In c (g_nodes h) -> ancestor h x c -> ~ reducible h c -> (shown_depth h c / shown_depth h x <= cutoff)%Q) ->
  combined h' (fun j => if Nat.eqb j n then x else o j) /\ collapsed h h' x n /\ ~ In n (g_nodes g0) /\
  (forall j, In j (g_nodes h') -> j <> n -> shown_depth h' j = shown_depth h j).
Proof.
  intros C Hx Rx FIN D EM SHAL. pose proof (cb_wf h o C) as W.
  destruct (make_irreducible_ok fuel h x deep W Hx Rx D) as (h1 & n1 & EM1 & W' & CO & G1 & G2 & ST & En).
  rewrite EM in EM1. injection EM1 as <- <-.
  destruct (make_keep fuel h x deep h' n W Hx Rx D EM) as (KN & KJ).
  destruct (red_old h o x C Hx Rx) as (Hx0 & Ox & Rx0).
  assert (Nn0 : ~ In n (g_nodes g0)).
  { intro H. apply (wf_live g0 W0) in H. pose proof (cb_next h o C). lia. }
  assert (Nnh : ~ In n (g_nodes h)) by apply (c_new _ _ _ _ CO).
  assert (OLD : forall j, In j (g_nodes h') -> j <> n -> In j (g_nodes h) /\ j <> x /\ ~ ancestor h x j).
  { intros j Hj Nj. apply (c_nodes _ _ _ _ CO) in Hj as [H|H]; [exact H|congruence]. }
  assert (MAX : forall j, In j (g_nodes h') -> j <> n -> parent_of h x <> Some j -> n_max (g_heap h' j) = n_max (g_heap h j)).
  { intros j Hj Nj Pj. destruct (OLD j Hj Nj) as (A1 & A2 & A3). apply KJ; auto. tauto. }
  assert (RED : forall j, j <> n -> reducible h' j <-> reducible h j).
  { intros j Nj. specialize (ST j Nj). apply static_fields in ST. unfold reducible. destruct ST as (_ & -> & _). tauto. }
  assert (MIN : forall j, j <> n -> n_min (g_heap h' j) = n_min (g_heap h j)).
  { intros j Nj. specialize (ST j Nj). apply static_fields in ST. tauto. }
  assert (PX : parent_of h x = parent_of g0 x).
  { destruct (cb_same h o C x Hx) as (_ & _ & _ & P). now rewrite Ox in P. }
  assert (SHN : forall j, In j (g_nodes h') -> j <> n -> shown_depth h' j = shown_depth h j).
  { intros j Hj Nj. destruct (OLD j Hj Nj) as (A1 & A2 & A3). destruct (KJ j Nj) as (KD & _).
    unfold shown_depth, range_of. rewrite KD. destruct (n_depth (g_heap h j)) eqn:DJ; [reflexivity|].
    rewrite MIN by exact Nj. rewrite MAX; auto. intro P.
    destruct (wf_parent h W x j Hx P) as (_ & Rj & _).
    destruct (cb_red h o C j A1 Rj) as (_ & B). apply B; [|exact DJ]. rewrite PX in P. now apply (CD x j). }
  split; [|split; [exact CO|split; [exact Nn0|exact SHN]]].
  constructor.
  - exact W'.
  - pose proof (cb_next h o C). pose proof (wf_live h' W' n) as L.
    specialize (L (proj2 (c_nodes _ _ _ _ CO n) (or_intror eq_refl))). lia.
  - intros j Hj. destruct (Nat.eqb_spec j n); [exact Hx0|]. now apply (cb_org h o C), OLD.
  - intros j Hj Hj0. destruct (Nat.eqb_spec j n); [subst; contradiction|].
    destruct (cb_old h o C j) as (B1 & B2 & B3); [now apply OLD|exact Hj0|]. split; [exact B1|].
    pose proof (static_fields _ _ (ST j n0)) as SF. destruct SF as (_ & -> & _ & -> & _). now split.
  - intros j Hj. destruct (Nat.eqb_spec j n) as [->|Nj].
    + pose proof (cb_same h o C x Hx) as SX. rewrite Ox in SX.
      rewrite (c_key _ _ _ _ CO), (c_basins _ _ _ _ CO), (c_min _ _ _ _ CO), (c_parent _ _ _ _ CO). exact SX.
    + destruct (OLD j Hj Nj) as (A1 & A2 & A3). destruct (c_keep _ _ _ _ CO j Hj Nj) as (S & P).
      pose proof (cb_same h o C j A1) as SJ. apply static_fields in S as (S1 & S2 & S3 & S4 & S5).
      unfold key_of, basins_of in *. rewrite S1, S3, S5, P. exact SJ.
  - intros j Hj Nj0. destruct (Nat.eqb_spec j n) as [->|Nj].
    + split; [apply (c_leaf _ _ _ _ CO)|]. split; [exact Rx0|].
      split; [destruct (cb_old h o C x Hx Hx0) as (_ & _ & <-); exact FIN|].
      intros c Hc Ac Rc. destruct (cb_cover h o C c Hc) as (j & Hj' & [Oj|(Nj & Aj)]).
      * assert (Hj0 : In j (g_nodes g0)).
        { destruct (in_dec Nat.eq_dec j (g_nodes g0)) as [H|H]; [exact H|exfalso].
          destruct (cb_new h o C j Hj' H) as (_ & R & _). rewrite Oj in R. contradiction. }
        destruct (cb_old h o C j Hj' Hj0) as (Oj' & Rj & _). assert (j = c) by congruence. subst j. clear Oj'.
        assert (Rch : ~ reducible h c) by (unfold reducible in *; now rewrite Rj).
        assert (Ach : ancestor h x c) by (now apply (anc_lift h o x c C Ac)).
        destruct (cb_leaf h o C c Hj' Rch) as (L1 & L2). specialize (L2 Hj0).
        split; [rewrite <- L2; now apply (c_max_ge _ _ _ _ CO)|].
        specialize (SHAL c Hj' Ach Rch). rewrite L1 in SHAL. destruct (cb_red h o C x Hx Rx) as (SX & _). rewrite SX in SHAL.
        unfold range_of in *. destruct (cb_same h o C c Hj') as (_ & _ & MJ & _). rewrite Oj in MJ. now rewrite L2, MJ in SHAL.
      * destruct (cb_new h o C j Hj' Nj) as (Rj & R0 & _ & BD). destruct (BD c Hc Aj Rc) as (B1 & _).
        assert (Ax : ancestor g0 x (o j)).
        { destruct (anc_comparable g0 x (o j) c Ac Aj) as [E|[A|A]]; [exfalso|exact A|exfalso].
          - apply Nj. replace j with x; [exact Hx0|]. apply (wf_key_inj h x j W Hx Hj').
            destruct (cb_same h o C j Hj') as (-> & _). destruct (cb_same h o C x Hx) as (-> & _). congruence.
          - apply (cb_apart h o C x j Hx Hj' Nj). now rewrite Ox. }
        assert (Axh : ancestor h x j) by (now apply (anc_lift h o x (o j) C Ax)).
        pose proof (c_max_ge _ _ _ _ CO j Hj' Axh Rj) as G. split; [lra|].
        specialize (SHAL j Hj' Axh Rj). destruct (cb_leaf h o C j Hj' Rj) as (L1 & _). rewrite L1 in SHAL.
        destruct (cb_red h o C x Hx Rx) as (SX & _). rewrite SX in SHAL.
        apply (div_le _ (range_of h j)); [now apply PD| |exact SHAL].
        unfold range_of. destruct (cb_same h o C j Hj') as (_ & _ & MJ & _). rewrite MJ.
        pose proof (anc_le (o j) c Aj Hc). lra.
    + destruct (OLD j Hj Nj) as (A1 & A2 & A3). destruct (cb_new h o C j A1 Nj0) as (B1 & B2 & B3 & B4).
      rewrite RED by exact Nj. split; [exact B1|]. split; [exact B2|]. split; [exact B3|].
      rewrite MAX; auto. intro P. destruct (wf_parent h W x j Hx P) as (_ & Rj & _). contradiction.
  - intros c Hc. destruct (cb_cover h o C c Hc) as (j & Hj & B).
    assert (Njn : j <> n) by (intros ->; contradiction).
    destruct (Nat.eq_dec j x) as [->|Njx].
    { exists n. split; [apply (c_nodes _ _ _ _ CO); now right|]. rewrite Nat.eqb_refl. rewrite Ox in B. tauto. }
    destruct (ancestor_dec h x j W Hj) as [A|A].
    + exists n. split; [apply (c_nodes _ _ _ _ CO); now right|]. rewrite Nat.eqb_refl. right. split; [exact Nn0|].
      apply (anc_drop h o x j C Hj) in A. destruct B as [<-|(_ & B)]; [exact A|]. eapply anc_trans; eauto.
    + exists j. split; [apply (c_nodes _ _ _ _ CO); left; auto|].
      destruct (Nat.eqb_spec j n); [contradiction|exact B].
  - intros j j' Hj Hj' Nj'.
    assert (Hn : forall j, In j (g_nodes h') -> j <> n -> ~ ancestor g0 x (o j)).
    { intros k Hk Nk A. destruct (OLD k Hk Nk) as (A1 & A2 & A3). apply A3. now apply (anc_lift h o x (o k) C A). }
    destruct (Nat.eqb_spec j' n) as [->|N'].
    + destruct (Nat.eqb_spec j n) as [->|Nj]; [now apply no_self_ancestor|]. now apply Hn.
    + destruct (OLD j' Hj' N') as (B1 & _). destruct (Nat.eqb_spec j n) as [->|Nj].
      * rewrite <- Ox. now apply (cb_apart h o C).
      * apply (cb_apart h o C); auto. now apply OLD.
  - intros j Hj Rj. destruct (Nat.eq_dec j n) as [->|Nj].
    + unfold shown_depth. rewrite KN. split; [reflexivity|]. intro H. contradiction.
    + rewrite RED in Rj by exact Nj. destruct (OLD j Hj Nj) as (A1 & A2 & A3).
      assert (PJ : parent_of h x <> Some j) by (intro P; now destruct (wf_parent h W x j Hx P) as (_ & Rj' & _)).
      rewrite SHN by assumption. rewrite MAX by assumption.
      destruct (cb_leaf h o C j A1 Rj) as (L1 & L2). split; [|exact L2]. rewrite L1. unfold range_of.
      now rewrite MIN, MAX by assumption.
  - intros j Hj Rj. destruct (Nat.eq_dec j n) as [->|Nj]; [exfalso; now apply (c_leaf _ _ _ _ CO)|].
    destruct (OLD j Hj Nj) as (A1 & A2 & A3). rewrite RED in Rj by exact Nj. rewrite SHN by assumption.
    destruct (KJ j Nj) as (KD & _). rewrite KD. now apply (cb_red h o C).
Qed.

(** Finite reducible nodes of [D] have a deep leaf below them. *)
Definition deepened (D : nat -> Prop) (h : graph) : Prop :=
  forall i, In i (g_nodes h) -> D i -> reducible h i -> n_infinite (g_heap h i) = false ->
  exists c, In c (g_nodes h) /\ ancestor h i c /\ ~ reducible h c /\ (cutoff < shown_depth h c / shown_depth h i)%Q.

Lemma deepened_sim D h h2 : deepened D h -> sim h h2 -> (forall j, shown_depth h2 j = shown_depth h j) -> deepened D h2.
Proof.
  intros DE S SH i Hi Di Ri Fi. pose proof S as ((A1 & A2 & A3) & A4 & A5 & A6 & A7 & A8).
  rewrite A2 in Hi. unfold reducible in *. rewrite (static_red h h2 i A5) in Ri. rewrite (static_inf h h2 i A5) in Fi.
  destruct (DE i Hi Di Ri Fi) as (c & C1 & C2 & C3 & C4). exists c. rewrite A2, <- (sim_ancestor h h2 i c S), !SH.
  unfold reducible in *. rewrite (static_red h h2 c A5). auto.
Qed.

Lemma deepened_collapse D h h' x n : well_formed h -> In x (g_nodes h) -> deepened D h -> collapsed h h' x n ->
  (forall j, In j (g_nodes h') -> j <> n -> shown_depth h' j = shown_depth h j) ->
  (forall i, D i -> ~ ancestor h i x) -> deepened D h'.
Proof.
  intros W Hx DE CO SH AP i Hi Di Ri Fi.
  assert (Nin : i <> n) by (intros ->; now apply (c_leaf _ _ _ _ CO)).
  pose proof Hi as Hi'. apply (c_nodes _ _ _ _ CO) in Hi as [(A1 & A2 & A3)|E]; [|contradiction].
  destruct (c_keep _ _ _ _ CO i Hi' Nin) as (S & _). apply static_fields in S as (_ & S2 & _ & S4 & _).
  unfold reducible in Ri. rewrite S2 in Ri. rewrite S4 in Fi.
  destruct (DE i A1 Di Ri Fi) as (c & C1 & C2 & C3 & C4).
  assert (Ncx : c <> x) by (intros ->; now apply (AP i Di)).
  assert (Nax : ~ ancestor h x c).
  { intro A. destruct (anc_comparable h i x c C2 A) as [E|[B|B]]; [congruence|now apply (AP i Di)|contradiction]. }
  assert (Hc' : In c (g_nodes h')) by (apply (c_nodes _ _ _ _ CO); left; auto).
  assert (Ncn : c <> n) by (intros ->; now apply (c_new _ _ _ _ CO)).
  exists c. split; [exact Hc'|]. split; [|split].
  - clear C3 C4. revert C1 Ncx Nax Hc' Ncn. induction C2 as [c E|c p E B IH]; intros C1 Ncx Nax Hc' Ncn;
      destruct (c_keep _ _ _ _ CO c Hc' Ncn) as (_ & P).
    + apply anc_parent. congruence.
    + destruct (wf_parent h W c p C1 E) as (Hp & _).
      assert (Npx : p <> x) by (intros ->; apply Nax; now apply anc_parent).
      assert (Npa : ~ ancestor h x p) by (intro B'; apply Nax; eapply anc_step; eauto).
      eapply anc_step; [rewrite P; exact E|]. apply IH; auto.
      * apply (c_nodes _ _ _ _ CO). left. auto.
      * intros ->. now apply (c_new _ _ _ _ CO).
  - destruct (c_keep _ _ _ _ CO c Hc' Ncn) as (S & _). apply static_fields in S as (_ & S2' & _).
    unfold reducible in *. now rewrite S2'.
  - now rewrite !SH.
Qed.

Lemma combine_loop_spec fuel l : forall h o (D : nat -> Prop) h', combined h o -> deepened D h -> NoDup l ->
  (forall x, In x l -> In x (g_nodes h) /\ reducible h x) ->
  StronglySorted Qle (map (fun i => (- n_min (g_heap g0 i))%Q) l) ->
  (forall i x, D i -> In i (g_nodes g0) -> In x l -> (n_min (g_heap g0 x) <= n_min (g_heap g0 i))%Q) ->
  combine_loop fuel cutoff h l = Done h' ->
  exists o', combined h' o' /\ deepened (fun i => D i \/ In i l) h'.
Proof.
  induction l as [|x t IH]; intros h o D h' C DE N HX SS AP E.
  { injection E as <-. exists o. split; [exact C|]. intros i Hi [Di|[]]. now apply DE. }
  inversion N as [|? ? Nx Nt]; subst. cbn [map] in SS. apply StronglySorted_inv in SS as (SS & SX).
  rewrite Forall_forall in SX. cbn [combine_loop] in E.
  destruct (combine_step fuel cutoff h x) as [h1| |] eqn:E1; try discriminate. cbn [obind] in E.
  destruct (HX x (or_introl eq_refl)) as (Hx & Rx). pose proof (cb_wf h o C) as W.
  destruct (red_old h o x C Hx Rx) as (Hx0 & Ox & Rx0).
  assert (LE : forall y, In y t -> (n_min (g_heap g0 y) <= n_min (g_heap g0 x))%Q).
  { intros y Hy. specialize (SX _ (in_map (fun i => (- n_min (g_heap g0 i))%Q) _ _ Hy)). cbn in SX. lra. }
  assert (AP' : forall i y, D i \/ i = x -> In i (g_nodes g0) -> In y t -> (n_min (g_heap g0 y) <= n_min (g_heap g0 i))%Q).
  { intros i y [Di|Di] Hi Hy; [apply AP; auto; now right|]. subst i. now apply LE. }
  assert (FINISH : forall h1 o1, combined h1 o1 -> deepened (fun i => D i \/ i = x) h1 ->
    (forall y, In y t -> In y (g_nodes h1) /\ reducible h1 y) -> combine_loop fuel cutoff h1 t = Done h' ->
    exists o', combined h' o' /\ deepened (fun i => D i \/ In i (x :: t)) h').
  { intros h2 o2 C2 D2 H2 E2. destruct (IH h2 o2 (fun i => D i \/ i = x) h' C2 D2 Nt H2 SS AP' E2) as (o' & C' & D').
    exists o'. split; [exact C'|]. intros i Hi Di. apply D'; [exact Hi|]. simpl in Di.
    destruct Di as [Di|[Di|Di]]; auto. }
  unfold combine_step in E1. destruct (n_infinite (g_heap h x)) eqn:FIN.
  { injection E1 as <-. apply (FINISH h o C); auto; [|intros y Hy; apply HX; now right].
    intros i Hi [Di|Di] Ri Fi; [now apply DE|]. subst i. congruence. }
  pose proof (get_depth_val h x) as V. pose proof (get_depth_shown h x) as SH1. pose proof (get_depth_cache h x) as CA.
  pose proof (get_depth_sim h x) as S1. destruct (get_depth h x) as [ha depth]. cbn [fst snd] in *. subst depth.
  assert (MO1 : forall j, n_depth (g_heap h j) <> None -> n_depth (g_heap ha j) <> None).
  { intros j H. rewrite CA. destruct (Nat.eqb x j); [discriminate|exact H]. }
  destruct (deep_children fuel ha x) as [deep| |] eqn:ED; try discriminate. cbn [obind] in E1.
  destruct (all_shallow cutoff (shown_depth h x) ha deep) as [[hb sh]| |] eqn:EA; try discriminate. cbn [obind] in E1.
  pose proof (all_shallow_sim _ _ _ _ _ _ EA) as S2. destruct (all_shallow_spec _ _ _ _ _ _ EA) as (SH2 & MO2 & SP).
  pose proof (sim_trans _ _ _ S1 S2) as S.
  assert (SH : forall j, shown_depth hb j = shown_depth h j) by (intro j; now rewrite SH2).
  assert (Cb : combined hb o) by (apply (combined_sim h); auto).
  assert (Db : deepened D hb) by (now apply (deepened_sim D h)).
  assert (Wa : well_formed ha) by (now apply (sim_wf h)).
  assert (Hxa : In x (g_nodes ha)) by (destruct S1 as ((_ & -> & _) & _); exact Hx).
  destruct (deep_children_any ha x fuel deep Wa Hxa ED) as (_ & DC & _).
  pose proof S as ((A1 & A2 & A3) & A4 & A5 & A6 & A7 & A8).
  assert (Hxb : In x (g_nodes hb)) by (now rewrite A2).
  assert (Rxb : reducible hb x) by (unfold reducible; now rewrite (static_red h hb x A5)).
  assert (HTb : forall y, In y t -> In y (g_nodes hb) /\ reducible hb y).
  { intros y Hy. unfold reducible. rewrite A2, (static_red h hb y A5). apply HX. now right. }
  assert (RA : forall c, reducible ha c <-> reducible hb c).
  { intro c. destruct S2 as (_ & _ & SS2 & _). unfold reducible. now rewrite (static_red ha hb c SS2). }
  assert (DB : forall c, In c deep <-> In c (g_nodes hb) /\ ancestor hb x c).
  { intro c. rewrite DC, (sim_ancestor ha hb x c S2). destruct S2 as ((_ & -> & _) & _). tauto. }
  destruct sh.
  - destruct (make_irreducible fuel hb x) as [[hc n]| |] eqn:EM; try discriminate. cbn [obind fst] in E1.
    injection E1 as ->.
    destruct (deep_children fuel hb x) as [deep'| |] eqn:ED';
      [|exfalso; unfold make_irreducible in EM; unfold reducible in Rxb; rewrite Rxb, ED' in EM; discriminate
       |exfalso; unfold make_irreducible in EM; unfold reducible in Rxb; rewrite Rxb, ED' in EM; discriminate].
    destruct (combined_collapse fuel hb o x deep' h1 n Cb Hxb Rxb) as (C1 & CO & Nn & SH3); auto.
    { now rewrite (static_inf h hb x A5). }
    { intros c Hc Ac Rc. rewrite SH2. rewrite (SH x). apply SP; [now apply DB|]. now rewrite RA. }
    apply (FINISH h1 _ C1); auto.
    + assert (DX : deepened D h1).
      { apply (deepened_collapse D hb h1 x n); auto; [apply (cb_wf hb o Cb)|].
        intros i Di A. pose proof (anc_drop hb o i x Cb Hxb A) as A'. rewrite Ox in A'.
        assert (Hi0 : In i (g_nodes g0)) by (now apply (ancestor_in g0 i x)).
        pose proof (AP i x Di Hi0 (or_introl eq_refl)). pose proof (anc_min g0 W0 M1 i x A' Hx0 Rx0). lra. }
      intros i Hi [Di|Di] Ri Fi; [now apply DX|]. subst i. exfalso.
      apply (c_nodes _ _ _ _ CO) in Hi as [(_ & H & _)|H]; [congruence|]. subst n.
      now apply (c_new _ _ _ _ CO).
    + intros y Hy. destruct (HTb y Hy) as (B1 & B2).
      assert (Nyn : y <> n) by (intros ->; now apply (c_new _ _ _ _ CO)).
      assert (Hy1 : In y (g_nodes h1)).
      { apply (c_nodes _ _ _ _ CO). left. split; [exact B1|]. split; [intros ->; contradiction|].
        intro A. pose proof (anc_drop hb o x y Cb B1 A) as A'. destruct (red_old hb o y Cb B1 B2) as (B3 & B4 & B5).
        rewrite B4 in A'. pose proof (anc_min g0 W0 M1 x y A' B3 B5). pose proof (LE y Hy). lra. }
      split; [exact Hy1|]. destruct (c_keep _ _ _ _ CO y Hy1 Nyn) as (S' & _). apply static_fields in S' as (_ & S2' & _).
      unfold reducible in *. now rewrite S2'.
  - injection E1 as <-. apply (FINISH hb o Cb); auto.
    intros i Hi [Di|Di] Ri Fi; [now apply Db|]. subst i. destruct SP as (c & P1 & P2 & P3).
    apply DB in P1 as (P1 & P4). exists c. split; [exact P1|]. split; [exact P4|].
    rewrite RA in P2. split; [exact P2|]. now rewrite SH2, (SH x).
Qed.
End Combine.
