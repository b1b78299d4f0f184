(** Collapsing a subtree and whole passes over the graph. *)
From Coq Require Import QArith Permutation.
From Verif Require Import Base RootsModel UnionModel LabelsModel NodesModel NodesSpec NodesProofs NodesEdit
  CoordMerge.
Local Open Scope Z_scope.

Lemma deep_children_any g i fuel l : well_formed g -> In i (g_nodes g) -> deep_children fuel g i = Done l ->
  NoDup l /\
  (forall x, In x l <-> In x (g_nodes g) /\ ancestor g i x) /\
  (forall x y, In x l -> parent_of g x = Some y -> y = i \/ before l y x).
Proof.
  intros W Hi E. unfold deep_children in E.
  assert (HC : forall x, In x (children_of g i) -> In x (g_nodes g) /\ dist g i x 1).
  { intros x Hx. apply (wf_children g W i x Hi) in Hx as (Hx & P). split; [exact Hx|]. now constructor. }
  destruct (deep_loop_spec g i fuel (children_of g i) 1 l W HC (wf_children_nodup g W i Hi) E)
    as (D1 & D2 & D3 & D4 & D5).
  split; [exact D1|]. split.
  - intro x. split.
    + intro Hx. destruct (D2 x Hx) as (Hx' & k & _ & D). split; [exact Hx'|]. apply dist_ancestor. now exists k.
    + intros (Hx & A). induction A as [x P|x y P A IH].
      * apply D4. apply (wf_children g W i x Hi). now split.
      * destruct (wf_parent g W x y Hx P) as (Hy & _). apply (D5 x y Hx P). now apply IH.
  - intros x y Hx P. destruct (D3 x Hx) as [Hc|(y' & P' & B)].
    + apply (wf_children g W i x Hi) in Hc as (_ & P'). left. congruence.
    + right. congruence.
Qed.

Lemma no_self_ancestor g i : well_formed g -> In i (g_nodes g) -> ~ ancestor g i i.
Proof.
  intros W Hi A. apply dist_ancestor in A as (k & D). pose proof (dist_pos g i i k W Hi D) as (_ & L).
  assert (k <> 0)%nat by (inversion D; lia). lia.
Qed.

Lemma ancestor_incl g a x : well_formed g -> In x (g_nodes g) -> ancestor g a x ->
  In a (g_nodes g) /\ reducible g a /\ incl (basins_of g x) (basins_of g a).
Proof.
  intros W Hx A. induction A as [x P|x y P A IH].
  - destruct (wf_parent g W x a Hx P) as (H1 & H2 & _ & H3). auto.
  - destruct (wf_parent g W x y Hx P) as (H1 & H2 & _ & H3). destruct (IH H1) as (A1 & A2 & A3).
    repeat split; auto. eapply incl_tran; eauto.
Qed.

(** Largest value of the irreducible nodes in a list. *)
Definition leaf_max (g : graph) (l : list nat) (m0 : Q) : Q :=
  fold_left (fun m c => if n_red (g_heap g c) then m
                        else if Qltb m (n_max (g_heap g c)) then n_max (g_heap g c) else m) l m0.

Lemma leaf_max_spec g l : forall m0, let m := leaf_max g l m0 in
  (m0 <= m)%Q /\
  (forall d, In d l -> ~ reducible g d -> (n_max (g_heap g d) <= m)%Q) /\
  (m = m0 \/ exists d, In d l /\ ~ reducible g d /\ m = n_max (g_heap g d)).
Proof.
  induction l as [|c t IH]; intro m0; cbv zeta; unfold leaf_max; cbn [fold_left].
  { split; [apply Qle_refl|]. split; [intros d []|now left]. }
  fold (leaf_max g t). unfold leaf_max in IH. unfold reducible in *.
  destruct (n_red (g_heap g c)) eqn:R.
  - destruct (IH m0) as (A & B & C). cbv zeta in A, B, C. split; [exact A|]. split.
    + intros d [<-|Hd] N; [congruence|now apply B].
    + destruct C as [C|(d & Hd & N & C)]; [now left|right; exists d; repeat split; auto; now right].
  - destruct (Qltb m0 (n_max (g_heap g c))) eqn:L.
    + apply Qltb_lt in L. destruct (IH (n_max (g_heap g c))) as (A & B & C). cbv zeta in A, B, C.
      split; [eapply Qle_trans; [apply Qlt_le_weak, L|exact A]|]. split.
      * intros d [<-|Hd] N; [exact A|now apply B].
      * right. destruct C as [C|(d & Hd & N & C)].
        -- exists c. split; [now left|]. split; [congruence|exact C].
        -- exists d. repeat split; auto. now right.
    + apply Qltb_ge in L. destruct (IH m0) as (A & B & C). cbv zeta in A, B, C. split; [exact A|]. split.
      * intros d [<-|Hd] N; [eapply Qle_trans; eauto|now apply B].
      * destruct C as [C|(d & Hd & N & C)]; [now left|right; exists d; repeat split; auto; now right].
Qed.

(** What collapsing node [i] does. *)
Record collapsed (g g' : graph) (i n : nat) : Prop := {
  c_nodes : forall j, In j (g_nodes g') <->
    (In j (g_nodes g) /\ j <> i /\ ~ ancestor g i j) \/ j = n;
  c_new : ~ In n (g_nodes g);
  c_key : key_of g' n = key_of g i;
  c_basins : basins_of g' n = basins_of g i;
  c_leaf : ~ reducible g' n;
  c_parent : parent_of g' n = parent_of g i;
  c_min : n_min (g_heap g' n) = n_min (g_heap g i);
  c_max_ge : forall d, In d (g_nodes g) -> ancestor g i d -> ~ reducible g d ->
    (n_max (g_heap g d) <= n_max (g_heap g' n))%Q;
  c_max_in : n_max (g_heap g' n) = low_start \/
    exists d, In d (g_nodes g) /\ ancestor g i d /\ ~ reducible g d /\
      n_max (g_heap g' n) = n_max (g_heap g d);
  c_keep : forall j, In j (g_nodes g') -> j <> n ->
    static (g_heap g' j) = static (g_heap g j) /\ parent_of g' j = parent_of g j
}.

Definition gone (g : graph) (x : nat) : Prop :=
  ~ In x (g_nodes g) /\ children_of g x = [] /\ ~ In (key_of g x) (map fst (g_keys g)) /\ (x < g_next g)%nat.

Lemma make_irreducible_ok fuel g i deep : well_formed g -> In i (g_nodes g) -> reducible g i ->
  deep_children fuel g i = Done deep ->
  exists g' n, make_irreducible fuel g i = Done (g', n) /\ well_formed g' /\ collapsed g g' i n /\
    (forall x, In x (g_nodes g) -> ancestor g i x -> gone g' x) /\
    (forall x, gone g x -> gone g' x) /\
    (forall x, x <> n -> static (g_heap g' x) = static (g_heap g x)) /\ n = g_next g.
Proof.
  intros W Hi Ri E. destruct (deep_children_any g i fuel deep W Hi E) as (D1 & D2 & D3).
  assert (Nid : ~ In i deep).
  { intro H. apply D2 in H as (_ & H). now apply (no_self_ancestor g i W Hi). }
  destruct (remove_all_ok i (rev deep) g W) as (g1 & E1 & W1 & X1 & R1 & N1 & NF1 & S1 & P1 & CK1 & KK1 & CO1).
  { now apply NoDup_rev. } { now rewrite <- in_rev. }
  { intros x Hx. apply in_rev in Hx. pose proof Hx as Hx'. apply D2 in Hx' as (Hn & A). split; [exact Hn|].
    inversion A; congruence. }
  { intros r1 x r2 Er c Hc.
    assert (Hx : In x deep) by (apply in_rev; rewrite Er; apply in_or_app; right; now left).
    pose proof Hx as Hx'. apply D2 in Hx' as (Hn & A).
    apply (wf_children g W x c Hn) in Hc as (Hc & Pc).
    assert (Hcd : In c deep) by (apply D2; split; [exact Hc|]; econstructor 2; eauto).
    destruct (D3 c x Hcd Pc) as [->|B]; [contradiction|].
    assert (Ed : deep = rev r2 ++ x :: rev r1).
    { rewrite <- (rev_involutive deep), Er, rev_app_distr. cbn. rewrite <- app_assoc. reflexivity. }
    destruct B as (l1 & l2 & Ed' & Hx1).
    (* x stands in l1, so c is in rev r1 *)
    apply in_rev. rewrite Ed in Hcd. apply in_app_iff in Hcd as [Hcd|[Hcd|Hcd]]; [exfalso| |exact Hcd].
    - assert (B2 : before deep c x) by (exists (rev r2), (rev r1); split; [exact Ed|exact Hcd]).
      assert (B1 : before deep x c) by (exists l1, l2; split; assumption).
      pose proof (before_pos _ _ _ D1 B1). pose proof (before_pos _ _ _ D1 B2). lia.
    - subst c. exfalso. now apply (wf_parent_neq g x x W Hn). }
  assert (Hi1 : In i (g_nodes g1)) by (apply N1; split; [exact Hi|now rewrite <- in_rev]).
  assert (Ri1 : reducible g1 i) by (unfold reducible; rewrite (static_red g g1 i S1); exact Ri).
  assert (Ci1 : children_of g1 i = []).
  { destruct (children_of g1 i) as [|c t] eqn:EC; [reflexivity|exfalso].
    assert (Hc : In c (children_of g1 i)) by (rewrite EC; now left).
    apply (wf_children g1 W1 i c Hi1) in Hc as (Hc & Pc). apply N1 in Hc as (Hc & Nc). apply Nc.
    apply -> in_rev. apply D2. split; [exact Hc|]. constructor. now rewrite <- P1. }
  destruct (remove_ok g1 i W1 Hi1 (or_introl Ri1)) as (g2 & E2 & EF).
  pose proof (eff_wf g1 g2 i W1 Hi1 EF) as W2.
  pose proof (e_static g1 g2 i EF) as S2.
  assert (S02 : same_static g g2) by (eapply static_trans; eauto).
  assert (P2 : forall j, parent_of g2 j = parent_of g j).
  { intro j. rewrite (e_parent g1 g2 i EF j), Ci1. cbn. apply P1. }
  assert (N2 : forall j, In j (g_nodes g2) <-> In j (g_nodes g) /\ ~ In j deep /\ j <> i).
  { intro j. rewrite (e_nodes g1 g2 i EF), in_without, N1, <- in_rev. tauto. }
  assert (K2 : ~ In (key_of g i) (map fst (g_keys g2))).
  { intro H. apply in_map_iff in H as ((k, y) & Ek & H). cbn in Ek. subst k.
    rewrite (e_keys g1 g2 i EF) in H. apply dict_del_in in H as (_ & H). cbn in H.
    rewrite (static_key g g1 i S1) in H. congruence. }
  assert (KK2 : incl (g_keys g2) (g_keys g1)).
  { intros e He. rewrite (e_keys g1 g2 i EF) in He. now apply dict_del_in in He. }
  assert (AD : admissible g2 (n_basins (g_heap g2 i)) (n_parent (g_heap g2 i))).
  { fold (basins_of g2 i) (parent_of g2 i). rewrite (static_basins g g2 i S02), P2. split.
    - intros p Pp. destruct (wf_parent g W i p Hi Pp) as (Hp & Rp & Bp & Ip).
      unfold reducible. rewrite (static_red g g2 p S02), (static_basins g g2 p S02). repeat split; auto.
      apply N2. split; [exact Hp|]. split.
      + intro H. apply D2 in H as (_ & A). apply (no_self_ancestor g i W Hi).
        econstructor 2; eauto.
      + now apply (wf_parent_neq g i p W Hi).
    - intros j b Hj Pj Hb. rewrite (static_basins g g2 j S02). rewrite P2 in Pj. apply N2 in Hj as (Hj & _ & Nj).
      intro Hb'. apply (wf_disjoint g W i j b Hi Hj); auto. }
  pose proof (leaf_max_spec g deep low_start) as LM. cbv zeta in LM.
  destruct (add_effect g2 false (n_basins (g_heap g2 i)) (n_infinite (g_heap g2 i)) (n_min (g_heap g2 i))
              (leaf_max g deep low_start) (Some (n_key (g_heap g2 i))) (n_parent (g_heap g2 i)) W2 AD)
    as (g' & n & k & E3 & Kk & Nk & A).
  { intros k Ek. injection Ek as <-. fold (key_of g2 i). rewrite (static_key g g2 i S02). exact K2. }
  specialize (Kk _ eq_refl). fold (key_of g2 i) in Kk. rewrite (static_key g g2 i S02) in Kk. subst k.
  exists g', n. split.
  { unfold make_irreducible. unfold reducible in Ri. rewrite Ri. cbn [negb]. rewrite E. cbn [obind].
    rewrite E1. cbn [obind]. rewrite E2. cbn [obind]. exact E3. }
  split; [exact (added_wf _ _ _ _ _ _ _ _ _ _ W2 AD Nk A)|].
  pose proof (a_id _ _ _ _ _ _ _ _ _ _ A) as En. rewrite (e_next g1 g2 i EF), X1 in En.
  pose proof (a_node _ _ _ _ _ _ _ _ _ _ A) as AN.
  assert (ST : forall x, x <> n -> static (g_heap g' x) = static (g_heap g x)).
  { intros x Hx. destruct (a_other _ _ _ _ _ _ _ _ _ _ A x Hx) as (S & _). rewrite S. apply S02. }
  assert (Hn : ~ In n (g_nodes g)) by (rewrite En; now apply wf_fresh).
  split; [constructor|split; [|split; [|split]]].
  - intro j. rewrite (a_nodes _ _ _ _ _ _ _ _ _ _ A), in_app_iff, N2. simpl. split.
    + intros [(Hj & Nd & Nj)|[<-|[]]]; [left|now right]. split; [exact Hj|]. split; [exact Nj|].
      intro An. apply Nd, D2. now split.
    + intros [(Hj & Nj & Na)| ->]; [left|right; now left]. repeat split; auto. intro H. apply D2 in H. tauto.
  - exact Hn.
  - unfold key_of. now rewrite AN.
  - unfold basins_of. rewrite AN. cbn. apply (static_basins g g2 i S02).
  - unfold reducible. rewrite AN. discriminate.
  - unfold parent_of at 1. rewrite AN. cbn. apply P2.
  - rewrite AN. cbn. apply (static_min g g2 i S02).
  - intros d Hd An Rd. rewrite AN. cbn. apply LM; [apply D2; now split|exact Rd].
  - rewrite AN. cbn. destruct LM as (_ & _ & [H|(d & Hd & Rd & H)]); [now left|right].
    exists d. apply D2 in Hd as (Hd & An). auto.
  - intros j Hj Nj. split; [now apply ST|].
    destruct (a_other _ _ _ _ _ _ _ _ _ _ A j Nj) as (_ & P & _). rewrite P. apply P2.
  - intros x Hx An.
    assert (Hxd : In x deep) by (apply D2; now split).
    assert (Nxn : x <> n) by (intros ->; contradiction).
    assert (Nxi : x <> i) by (intros ->; contradiction).
    destruct (CK1 x) as (C1 & K1); [now rewrite <- in_rev|].
    assert (Nx2 : ~ In x (g_nodes g2)) by (rewrite N2; tauto).
    split; [|split; [|split]].
    + rewrite (a_nodes _ _ _ _ _ _ _ _ _ _ A), in_app_iff. simpl. intros [H|[H|[]]]; congruence.
    + destruct (a_other _ _ _ _ _ _ _ _ _ _ A x Nxn) as (_ & _ & _ & C). rewrite C.
      assert (C2 : children_of g2 x = []).
      { rewrite (e_children g1 g2 i EF x Nxi). destruct (parent_of g1 i) as [p|] eqn:PI; [|exact C1].
        destruct (Nat.eqb_spec p x) as [->|]; [|exact C1]. exfalso.
        destruct (wf_parent g1 W1 i x Hi1 PI) as (H & _). apply N1 in H as (_ & H). apply H. now rewrite <- in_rev. }
      fold (parent_of g2 i). rewrite P2. destruct (parent_of g i) as [p|] eqn:PI; [|exact C2].
      destruct (Nat.eqb_spec p x) as [->|]; [|exact C2]. exfalso.
      apply (no_self_ancestor g i W Hi). econstructor 2; eauto.
    + assert (Ex : key_of g' x = key_of g x).
      { pose proof (static_fields _ _ (ST x Nxn)) as F. unfold key_of. tauto. }
      rewrite Ex, (a_keys _ _ _ _ _ _ _ _ _ _ A), map_app, in_app_iff. cbn. intros [H|[H|[]]].
      * apply K1. apply in_map_iff in H as (e & Ee & He). apply in_map_iff. exists e. split; [exact Ee|now apply KK2].
      * apply Nxi. symmetry. apply (wf_key_inj g i x W Hi Hx). exact H.
    + rewrite (a_next _ _ _ _ _ _ _ _ _ _ A), En. pose proof (wf_live g W x Hx). lia.
  - intros x (Gx1 & Gx2 & Gx3 & Gx4).
    assert (Nxn : x <> n) by lia.
    assert (Nxi : x <> i) by (intros ->; contradiction).
    split; [|split; [|split]].
    + rewrite (a_nodes _ _ _ _ _ _ _ _ _ _ A), in_app_iff, N2. simpl. intros [H|[H|[]]]; [tauto|congruence].
    + destruct (a_other _ _ _ _ _ _ _ _ _ _ A x Nxn) as (_ & _ & _ & C). rewrite C.
      assert (C2 : children_of g2 x = []).
      { rewrite (e_children g1 g2 i EF x Nxi). rewrite P1, (CO1 x Gx1).
        destruct (parent_of g i) as [p|] eqn:PI; [|exact Gx2].
        destruct (Nat.eqb_spec p x) as [->|]; [|exact Gx2]. exfalso.
        destruct (wf_parent g W i x Hi PI) as (H & _). contradiction. }
      fold (parent_of g2 i). rewrite P2. destruct (parent_of g i) as [p|] eqn:PI; [|exact C2].
      destruct (Nat.eqb_spec p x) as [->|]; [|exact C2]. exfalso.
      destruct (wf_parent g W i x Hi PI) as (H & _). contradiction.
    + assert (Ex : key_of g' x = key_of g x).
      { pose proof (static_fields _ _ (ST x Nxn)) as F. unfold key_of. tauto. }
      rewrite Ex, (a_keys _ _ _ _ _ _ _ _ _ _ A), map_app, in_app_iff. cbn. intros [H|[H|[]]].
      * apply Gx3. apply in_map_iff in H as (e & Ee & He). apply in_map_iff. exists e. split; [exact Ee|].
        apply KK1. now apply KK2.
      * apply Gx3. rewrite <- H. apply in_map_iff. exists (key_of g i, i). split; [reflexivity|].
        apply (wf_keys g W). now split.
    + rewrite (a_next _ _ _ _ _ _ _ _ _ _ A), En. lia.
  - exact ST.
  - exact En.
Qed.

Lemma make_irreducible_total fuel g i : well_formed g -> In i (g_nodes g) -> (length (g_nodes g) <= fuel)%nat ->
  exists deep, deep_children fuel g i = Done deep.
Proof. intros W Hi F. destruct (deep_children_spec g i fuel W Hi F) as (l & E & _). now exists l. Qed.

(** ** Basins of the irreducible nodes *)
Lemma leaf_removed g g' i : well_formed g -> In i (g_nodes g) -> reducible g i -> eff g g' i ->
  forall b, leaf_basin g b <-> leaf_basin g' b.
Proof.
  intros W Hi Ri E b.
  assert (IN : forall j, In j (g_nodes g') <-> In j (g_nodes g) /\ j <> i).
  { intro j. rewrite (e_nodes g g' i E). apply in_without. }
  unfold leaf_basin, reducible in *. split; intros (j & Hj & Rj & Hb); exists j.
  - rewrite IN, (static_red g g' j (e_static g g' i E)), (static_basins g g' j (e_static g g' i E)).
    repeat split; auto. intros ->. congruence.
  - rewrite IN in Hj. rewrite (static_red g g' j (e_static g g' i E)) in Rj.
    rewrite (static_basins g g' j (e_static g g' i E)) in Hb. tauto.
Qed.

Lemma ancestor_dec g a x : well_formed g -> In x (g_nodes g) -> {ancestor g a x} + {~ ancestor g a x}.
Proof.
  intros W. revert x. induction x as [x IH] using (induction_ltof1 _ (pos (g_nodes g))). intro Hx.
  destruct (parent_of g x) as [p|] eqn:P.
  - destruct (Nat.eq_dec p a) as [->|N]; [left; now constructor|].
    destruct (wf_parent g W x p Hx P) as (Hp & _ & B & _).
    destruct (IH p) as [A|A].
    + unfold ltof. apply before_pos; [apply (wf_nodup g W)|exact B].
    + exact Hp.
    + left. econstructor 2; eauto.
    + right. intro A'. inversion A'; subst; congruence.
  - right. intro A. inversion A; congruence.
Qed.

Lemma leaf_collapsed g g' i n : well_formed g -> In i (g_nodes g) -> reducible g i -> collapsed g g' i n ->
  forall b, leaf_basin g b -> leaf_basin g' b.
Proof.
  intros W Hi Ri C b (j & Hj & Rj & Hb).
  assert (Nj : j <> i) by (intros ->; contradiction).
  destruct (ancestor_dec g i j W Hj) as [A|A].
  - exists n. split; [apply (c_nodes _ _ _ _ C); now right|]. split; [apply (c_leaf _ _ _ _ C)|].
    rewrite (c_basins _ _ _ _ C). destruct (ancestor_incl g i j W Hj A) as (_ & _ & I). now apply I.
  - assert (Hj' : In j (g_nodes g')) by (apply (c_nodes _ _ _ _ C); left; auto).
    exists j. split; [exact Hj'|].
    assert (Nn : j <> n) by (intros ->; now apply (c_new _ _ _ _ C)).
    destruct (c_keep _ _ _ _ C j Hj' Nn) as (S & _). apply static_fields in S.
    unfold reducible, basins_of in *. destruct S as (_ & S2 & S3 & _). rewrite S2, S3. tauto.
Qed.

(** ** Nodes sharing a basin are related *)
Lemma ancestor_first g a x : ancestor g a x -> parent_of g x = Some a \/
  exists c, parent_of g c = Some a /\ ancestor g c x.
Proof.
  induction 1 as [x P|x y P A IH]; [now left|right]. destruct IH as [IH|(c & Pc & Ac)].
  - exists y. split; [exact IH|]. now constructor.
  - exists c. split; [exact Pc|]. econstructor 2; eauto.
Qed.

Lemma ancestor_in g a x : well_formed g -> In x (g_nodes g) -> ancestor g a x -> In a (g_nodes g).
Proof. intros W Hx A. now destruct (ancestor_incl g a x W Hx A). Qed.

Lemma related g b : well_formed g -> forall m i j, (pos (g_nodes g) i + pos (g_nodes g) j <= m)%nat ->
  In i (g_nodes g) -> In j (g_nodes g) -> In b (basins_of g i) -> In b (basins_of g j) ->
  i = j \/ ancestor g i j \/ ancestor g j i.
Proof.
  intro W. induction m as [m IH] using lt_wf_ind. intros i j L Hi Hj Bi Bj.
  assert (STEP : forall i j p, (pos (g_nodes g) i + pos (g_nodes g) j <= m)%nat ->
    In i (g_nodes g) -> In j (g_nodes g) -> In b (basins_of g i) -> In b (basins_of g j) ->
    parent_of g i = Some p -> i = j \/ ancestor g i j \/ ancestor g j i).
  { clear i j L Hi Hj Bi Bj. intros i j p L Hi Hj Bi Bj P.
    destruct (wf_parent g W i p Hi P) as (Hp & Rp & Bp & Ip).
    pose proof (before_pos _ _ _ (wf_nodup g W) Bp) as Lp.
    destruct (IH (pos (g_nodes g) p + pos (g_nodes g) j)%nat ltac:(lia) p j (le_n _) Hp Hj (Ip b Bi) Bj)
      as [->|[A|A]].
    - right. right. now constructor.
    - destruct (ancestor_first g p j A) as [Pj|(c & Pc & Ac)].
      + destruct (Nat.eq_dec i j) as [|N]; [now left|exfalso].
        apply (wf_disjoint g W i j b Hi Hj N); auto. congruence.
      + pose proof (ancestor_incl g c j W Hj Ac) as (Hc & _ & Ic).
        destruct (Nat.eq_dec i c) as [->|N]; [right; now left|exfalso].
        apply (wf_disjoint g W i c b Hi Hc N); auto. congruence.
    - right. right. econstructor 2; eauto. }
  destruct (parent_of g i) as [p|] eqn:Pi; [now apply (STEP i j p)|].
  destruct (parent_of g j) as [q|] eqn:Pj.
  - destruct (STEP j i q) as [H|[H|H]]; auto. lia.
  - destruct (Nat.eq_dec i j) as [|N]; [now left|exfalso].
    apply (wf_disjoint g W i j b Hi Hj N); auto. congruence.
Qed.

(** ** Cached depths do not matter for the shape of the graph *)
Definition sim (g g' : graph) : Prop :=
  same_lists g g' /\ g_roots g' = g_roots g /\ same_static g g' /\
  (forall j, parent_of g' j = parent_of g j) /\ (forall j, children_of g' j = children_of g j) /\
  (forall j, n_max (g_heap g' j) = n_max (g_heap g j)).

Lemma sim_refl g : sim g g.
Proof. repeat split. Qed.
Lemma sim_trans g1 g2 g3 : sim g1 g2 -> sim g2 g3 -> sim g1 g3.
Proof.
  intros ((A1 & A2 & A3) & A4 & A5 & A6 & A7 & A8) ((B1 & B2 & B3) & B4 & B5 & B6 & B7 & B8).
  split; [repeat split; congruence|]. split; [congruence|]. split; [eapply static_trans; eauto|].
  repeat split; congruence.
Qed.

Lemma get_depth_sim g i : sim g (fst (get_depth g i)).
Proof.
  unfold get_depth. destruct (n_depth (g_heap g i)); [apply sim_refl|]. cbn [fst].
  split; [repeat split|]. split; [reflexivity|].
  split; [intro j; cbn; rewrite hset_eq; destruct (Nat.eqb_spec i j); subst; reflexivity|].
  split; [|split]; intro j; unfold parent_of, children_of; cbn; rewrite hset_eq; destruct (Nat.eqb_spec i j); subst; reflexivity.
Qed.

Lemma sim_wf g g' : sim g g' -> well_formed g -> well_formed g'.
Proof.
  intros ((A1 & A2 & A3) & A4 & A5 & A6 & A7 & A8) W.
  constructor; unfold reducible.
  - rewrite A2. apply (wf_nodup g W).
  - rewrite A1, A2. apply (wf_live g W).
  - rewrite A3. apply (wf_keys_nodup g W).
  - intros k i. rewrite A2, A3, (static_key g g' i A5). apply (wf_keys g W).
  - intros i p Hi P. rewrite A2 in *. rewrite A6 in P.
    rewrite (static_red g g' p A5), !(static_basins g g' _ A5). now apply (wf_parent g W).
  - intros p Hp. rewrite A2 in Hp. rewrite A7. now apply (wf_children_nodup g W).
  - intros p c Hp. rewrite A2 in *. rewrite A6, A7. now apply (wf_children g W).
  - rewrite A4. apply (wf_roots_nodup g W).
  - intro i. rewrite A2, A4, A6. apply (wf_roots g W).
  - intros i j b. rewrite A2, !A6, !(static_basins g g' _ A5). apply (wf_disjoint g W).
Qed.

Lemma sim_leaf g g' b : sim g g' -> leaf_basin g b <-> leaf_basin g' b.
Proof.
  intros ((A1 & A2 & A3) & A4 & A5 & A6 & A7 & A8). unfold leaf_basin, reducible.
  split; intros (i & H1 & H2 & H3); exists i.
  - now rewrite A2, (static_red g g' i A5), (static_basins g g' i A5).
  - rewrite A2 in H1. rewrite (static_red g g' i A5) in H2. rewrite (static_basins g g' i A5) in H3. auto.
Qed.

(** ** Removing shallow nodes *)
Lemma shallow_loop_ok cutoff l : forall g g', well_formed g -> NoDup l ->
  (forall x, In x l -> In x (g_nodes g) /\ reducible g x) ->
  shallow_loop cutoff g l = Done g' ->
  well_formed g' /\ (forall b, leaf_basin g b <-> leaf_basin g' b) /\
  (forall i, In i (g_nodes g') -> In i (g_nodes g)) /\
  (forall i, In i (g_nodes g) -> ~ In i l -> In i (g_nodes g')).
Proof.
  induction l as [|x t IH]; intros g g' W N HX E.
  { injection E as <-. split; [exact W|]. split; [tauto|]. tauto. }
  inversion N; subst. cbn [shallow_loop] in E. destruct (shallow_step cutoff g x) as [g1| |] eqn:E1; try discriminate.
  cbn [obind] in E. destruct (HX x (or_introl eq_refl)) as (Hx & Rx).
  unfold shallow_step in E1. destruct (n_parent (g_heap g x)) as [p|] eqn:P; [|discriminate].
  pose proof (get_depth_sim g x) as S1. destruct (get_depth g x) as [ga d]. cbn [fst] in S1.
  pose proof (get_depth_sim ga p) as S2. destruct (get_depth ga p) as [gb dp]. cbn [fst] in S2.
  pose proof (sim_trans _ _ _ S1 S2) as S. destruct (Qeq_bool dp 0); [discriminate|].
  pose proof (sim_wf _ _ S W) as Wb.
  destruct S as (SL & SR & SS & SP & SC & SM). destruct SL as (SL1 & SL2 & SL3).
  assert (S : sim g gb) by (repeat split; auto).
  destruct (Qltb cutoff (d / dp)) eqn:Q.
  - injection E1 as <-. destruct (IH gb g' Wb) as (K1 & K2 & K3 & K4); auto.
    { intros y Hy. rewrite SL2. unfold reducible. rewrite (static_red g gb y SS). apply HX. now right. }
    split; [exact K1|]. split; [|split].
    + intro b. rewrite (sim_leaf g gb b S). apply K2.
    + intros i Hi. rewrite <- SL2. now apply K3.
    + intros i Hi Ni. apply K4; [now rewrite SL2|]. intro. apply Ni. now right.
  - assert (Hxb : In x (g_nodes gb)) by (now rewrite SL2).
    assert (Rxb : reducible gb x) by (unfold reducible; now rewrite (static_red g gb x SS)).
    destruct (remove_ok gb x Wb Hxb (or_introl Rxb)) as (g1' & E1' & EF).
    rewrite E1' in E1. injection E1 as ->. pose proof (eff_wf gb g1 x Wb Hxb EF) as W1.
    assert (IN : forall j, In j (g_nodes g1) <-> In j (g_nodes g) /\ j <> x).
    { intro j. rewrite (e_nodes gb g1 x EF), in_without, SL2. tauto. }
    destruct (IH g1 g' W1) as (K1 & K2 & K3 & K4); auto.
    { intros y Hy. rewrite IN. destruct (HX y (or_intror Hy)) as (A & B). split; [split; [exact A|]; intros ->; contradiction|].
      unfold reducible. rewrite (static_red gb g1 y (e_static gb g1 x EF)), (static_red g gb y SS). exact B. }
    split; [exact K1|]. split; [|split].
    + intro b. rewrite (sim_leaf g gb b S), (leaf_removed gb g1 x Wb Hxb Rxb EF b). apply K2.
    + intros i Hi. apply K3, IN in Hi. tauto.
    + intros i Hi Ni. simpl in Ni. apply K4; [apply IN; split; [exact Hi|]; intros ->; tauto|tauto].
Qed.

Lemma sorted_reducible_ok argsort g : sorts argsort -> NoDup (g_nodes g) ->
  NoDup (sorted_reducible argsort g) /\
  forall x, In x (sorted_reducible argsort g) <-> In x (g_nodes g) /\ reducible g x.
Proof.
  intros S N. unfold sorted_reducible. set (l := filter _ (g_nodes g)).
  destruct (S (map (fun i => n_min (g_heap g i)) l)) as (P & _). rewrite map_length in P.
  assert (PL : Permutation (map (fun j => nth j l 0%nat) (argsort (map (fun i => n_min (g_heap g i)) l))) l).
  { rewrite P. rewrite (nth_seq_id 0%nat l). reflexivity. }
  split.
  - eapply Permutation_NoDup; [symmetry; exact PL|]. now apply NoDup_filter.
  - intro x. split.
    + intro H. apply (Permutation_in _ PL) in H. unfold l in H. apply filter_In in H. exact H.
    + intro H. apply (Permutation_in _ (Permutation_sym PL)). unfold l. now apply filter_In.
Qed.

Lemma tl_in {A} (l : list A) x : In x (tl l) -> In x l.
Proof. destruct l; simpl; auto. Qed.
Lemma tl_nodup {A} (l : list A) : NoDup l -> NoDup (tl l).
Proof. destruct 1; simpl; [constructor|assumption]. Qed.

(** ** Combining shallow nodes *)
Lemma all_shallow_sim cutoff depth l : forall g g' s, all_shallow cutoff depth g l = Done (g', s) -> sim g g'.
Proof.
  induction l as [|c t IH]; intros g g' s E; cbn [all_shallow] in E.
  { injection E as <- <-. apply sim_refl. }
  destruct (n_red (g_heap g c)); [now apply IH in E|].
  pose proof (get_depth_sim g c) as S1. destruct (get_depth g c) as [g1 d]. cbn [fst] in S1.
  destruct (Qeq_bool depth 0); [discriminate|]. destruct (Qltb cutoff (d / depth)).
  - injection E as <- <-. exact S1.
  - apply IH in E. eapply sim_trans; eauto.
Qed.

Lemma sim_gone g g' x : sim g g' -> gone g x -> gone g' x.
Proof.
  intros ((A1 & A2 & A3) & A4 & A5 & A6 & A7 & A8) (G1 & G2 & G3 & G4). unfold gone.
  rewrite A1, A2, A3, A7, (static_key g g' x A5). auto.
Qed.

Lemma gone_remove g x : gone g x -> n_red (g_heap g x) = true -> remove g x = Raised.
Proof.
  intros (G1 & G2 & G3 & G4) R. unfold remove. rewrite R. unfold remove_reducible.
  unfold children_of in G2. rewrite G2. cbn [set_parents obind fold_left].
  destruct (n_parent (g_heap g x)) as [p|]; cbn [obind].
  - unfold delete. set (g3 := on_node _ _ _).
    assert (S : n_key (g_heap g3 x) = key_of g x).
    { unfold g3, key_of. cbn. unfold hset. destruct (Nat.eqb_spec p x); [subst|reflexivity].
      cbn. rewrite Nat.eqb_refl. reflexivity. }
    rewrite S. change (g_keys g3) with (g_keys g).
    destruct (dict_has (key_of g x) (g_keys g)) eqn:D; [|reflexivity]. apply dict_has_in in D. contradiction.
  - unfold delete. cbn [g_heap with_roots g_keys]. fold (key_of g x).
    destruct (dict_has (key_of g x) (g_keys g)) eqn:D; [|reflexivity]. apply dict_has_in in D. contradiction.
Qed.

Lemma gone_deep g x fuel l : children_of g x = [] -> deep_children fuel g x = Done l -> l = [].
Proof.
  intros C. unfold deep_children. unfold children_of in C. rewrite C. destruct fuel; [discriminate|].
  cbn. congruence.
Qed.

Lemma combine_loop_ok fuel cutoff l : forall g g', well_formed g -> NoDup l ->
  (forall x, In x l -> reducible g x /\ (In x (g_nodes g) \/ gone g x)) ->
  combine_loop fuel cutoff g l = Done g' ->
  well_formed g' /\ (forall b, leaf_basin g b -> leaf_basin g' b).
Proof.
  induction l as [|x t IH]; intros g g' W N HX E.
  { injection E as <-. split; [exact W|auto]. }
  inversion N; subst. cbn [combine_loop] in E. destruct (combine_step fuel cutoff g x) as [g1| |] eqn:E1; try discriminate.
  cbn [obind] in E. destruct (HX x (or_introl eq_refl)) as (Rx & Hx).
  unfold combine_step in E1. destruct (n_infinite (g_heap g x)).
  { injection E1 as <-. destruct (IH g g' W H2) as (A & B); auto. intros y Hy. apply HX. now right. }
  pose proof (get_depth_sim g x) as S1. destruct (get_depth g x) as [ga depth]. cbn [fst] in S1.
  destruct (deep_children fuel ga x) as [deep| |] eqn:ED; try discriminate. cbn [obind] in E1.
  destruct (all_shallow cutoff depth ga deep) as [[gb sh]| |] eqn:EA; try discriminate. cbn [obind] in E1.
  pose proof (sim_trans _ _ _ S1 (all_shallow_sim _ _ _ _ _ _ EA)) as S.
  pose proof (sim_wf _ _ S W) as Wb. pose proof S as S'.
  destruct S' as ((SL1 & SL2 & SL3) & SR & SS & SP & SC & SM).
  assert (HT : forall y, In y t -> reducible gb y /\ (In y (g_nodes gb) \/ gone gb y)).
  { intros y Hy. destruct (HX y (or_intror Hy)) as (A & B). unfold reducible. rewrite (static_red g gb y SS), SL2.
    split; [exact A|]. destruct B as [B|B]; [now left|right; eapply sim_gone; eauto]. }
  destruct sh.
  - destruct (make_irreducible fuel gb x) as [[g1' n]| |] eqn:EM; try discriminate. cbn [obind fst] in E1.
    injection E1 as ->.
    assert (Rxb : reducible gb x) by (unfold reducible; now rewrite (static_red g gb x SS)).
    destruct Hx as [Hx|Hx].
    + assert (Hxb : In x (g_nodes gb)) by (now rewrite SL2).
      destruct (deep_children fuel gb x) as [deep'| |] eqn:ED';
        [|exfalso; unfold make_irreducible in EM; unfold reducible in Rxb; rewrite Rxb, ED' in EM; discriminate
         |exfalso; unfold make_irreducible in EM; unfold reducible in Rxb; rewrite Rxb, ED' in EM; discriminate].
      destruct (make_irreducible_ok fuel gb x deep' Wb Hxb Rxb ED') as (g1'' & n' & EM' & W1 & C & G1 & G2 & ST & En).
      rewrite EM' in EM. injection EM as -> ->.
      destruct (IH g1 g' W1 H2) as (A & B).
      { intros y Hy. destruct (HT y Hy) as (Ry & Py).
        assert (Nyn : y <> n).
        { destruct Py as [Py|Py]; [intros ->; now apply (c_new _ _ _ _ C)|]. destruct Py as (_ & _ & _ & Py). lia. }
        split.
        - specialize (ST y Nyn). apply static_fields in ST. unfold reducible in *. destruct ST as (_ & -> & _). exact Ry.
        - destruct Py as [Py|Py]; [|right; now apply G2].
          destruct (ancestor_dec gb x y Wb Py) as [An|An]; [right; now apply G1|left].
          apply (c_nodes _ _ _ _ C). left. repeat split; auto. intros ->. contradiction. }
      { exact E. }
      split; [exact A|]. intros b Hb. apply B. apply (leaf_collapsed gb g1 x n Wb Hxb Rxb C). now apply (sim_leaf g gb b S).
    + exfalso. pose proof (sim_gone _ _ _ S Hx) as Gx.
      unfold make_irreducible in EM. unfold reducible in Rxb. rewrite Rxb in EM. cbn [negb] in EM.
      destruct (deep_children fuel gb x) as [deep'| |] eqn:ED'; try discriminate.
      apply gone_deep in ED'; [|apply Gx]. subst deep'. cbn [obind rev remove_all] in EM.
      rewrite (gone_remove gb x Gx Rxb) in EM. discriminate.
  - injection E1 as <-. destruct (IH gb g' Wb H2 HT E) as (A & B). split; [exact A|].
    intros b Hb. apply B. now apply (sim_leaf g gb b S).
Qed.
