From Coq Require Import QArith Permutation.
From Verif Require Import Base RootsModel UnionModel LabelsModel NodesModel NodesSpec NodesProofs NodesEdit NodesTop
  DictModel DictSpec.
Local Open Scope Z_scope.

Lemma dict_get_spec g i : well_formed g -> In i (g_nodes g) -> dict_get (g_keys g) (key_of g i) = Some i.
Proof.
  intros W Hi. unfold dict_get.
  destruct (find (fun e => fst e =? key_of g i) (g_keys g)) as [[k j]|] eqn:F.
  - apply find_some in F as (F & E). cbn in E. apply Z.eqb_eq in E. cbn. f_equal.
    apply (wf_keys g W) in F as (Hj & Kj). apply (wf_key_inj g j i W Hj Hi). congruence.
  - exfalso. assert (H : In (key_of g i, i) (g_keys g)) by (apply (wf_keys g W); now split).
    pose proof (find_none _ _ F _ H) as X. cbn in X. rewrite Z.eqb_refl in X. discriminate.
Qed.

Lemma Forall2_weaken {A B} (R S : A -> B -> Prop) l l' : (forall a b, R a b -> S a b) -> Forall2 R l l' -> Forall2 S l l'.
Proof. intro H. induction 1; constructor; auto. Qed.

Lemma looks_in f f' l l' i : Forall2 (looks_like f f') l l' -> In i l -> exists i', In i' l' /\ looks_like f f' i i'.
Proof.
  induction 1 as [|a b l l' H _ IH]; [intros []|]. intros [<-|Hi]; [exists b; split; [now left|exact H]|].
  destruct (IH Hi) as (i' & A & B). exists i'. split; [now right|exact B].
Qed.
Lemma looks_out f f' l l' i' : Forall2 (looks_like f f') l l' -> In i' l' -> exists i, In i l /\ looks_like f f' i i'.
Proof.
  induction 1 as [|a b l l' H _ IH]; [intros []|]. intros [<-|Hi]; [exists a; split; [now left|exact H]|].
  destruct (IH Hi) as (i & A & B). exists i. split; [now right|exact B].
Qed.

Lemma parent_key_same g i j : well_formed g -> In i (g_nodes g) -> In j (g_nodes g) ->
  parent_key g i = parent_key g j -> parent_of g i = parent_of g j.
Proof.
  intros W Hi Hj. unfold parent_key. destruct (parent_of g i) as [p|] eqn:P, (parent_of g j) as [q|] eqn:Q; try discriminate.
  - intros [= E]. f_equal. destruct (wf_parent g W i p Hi P) as (A & _). destruct (wf_parent g W j q Hj Q) as (B & _).
    now apply (wf_key_inj g p q W).
  - reflexivity.
Qed.

Lemma add_dict_step f f' l1 x l2 : well_formed (f_graph f) -> dims_agree f -> g_nodes (f_graph f) = l1 ++ x :: l2 ->
  well_formed (f_graph f') -> Forall2 (looks_like f f') l1 (g_nodes (f_graph f')) ->
  exists f2, node_from_dict f' (node_to_dict f x) = Done f2 /\ well_formed (f_graph f2) /\
    Forall2 (looks_like f f2) (l1 ++ [x]) (g_nodes (f_graph f2)) /\
    f_type f2 = f_type f' /\ f_maxima f2 = f_maxima f' /\ f_charges f2 = f_charges f' /\ f_volumes f2 = f_volumes f'.
Proof.
  intros W DA EN W' F. set (g := f_graph f) in *. set (g' := f_graph f') in *.
  assert (Hx : In x (g_nodes g)) by (rewrite EN; apply in_or_app; right; now left).
  pose proof (wf_nodup g W) as ND. rewrite EN in ND.
  assert (Nx : ~ In x l1) by (apply NoDup_remove_2 in ND; intro; apply ND, in_or_app; now left).
  assert (L1 : forall i, In i l1 -> In i (g_nodes g)) by (intros; rewrite EN; apply in_or_app; now left).
  (* the parent *)
  assert (PA : exists parent, key_node g' (parent_key g x) = Done parent /\
     (match parent with None => parent_key g x = None | Some p' => exists p, parent_of g x = Some p /\ In p l1 /\
        In p' (g_nodes g') /\ looks_like f f' p p' end)).
  { unfold parent_key. destruct (parent_of g x) as [p|] eqn:P; [|exists None; now split].
    destruct (wf_parent g W x p Hx P) as (Hp & Rp & Bp & Ip).
    assert (Hp1 : In p l1).
    { destruct Bp as (m1 & m2 & Em & Hm). assert (m1 = l1); [|congruence].
      pose proof (wf_nodup g W) as ND2. rewrite Em in EN. clear -EN ND Em ND2.
      assert (N1 : ~ In x m1) by (rewrite Em in ND2; apply NoDup_remove_2 in ND2; intro; apply ND2, in_or_app; now left).
      assert (N2 : ~ In x l1) by (apply NoDup_remove_2 in ND; intro; apply ND, in_or_app; now left).
      clear -EN N1 N2. revert l1 EN N2. induction m1 as [|a m1 IH]; intros [|b l1] E N2; cbn in E; auto.
      - injection E as -> _. exfalso. apply N2. now left.
      - injection E as -> _. exfalso. apply N1. now left.
      - injection E as -> E. f_equal. apply IH; auto; [intro; apply N1; now right|intro; apply N2; now right]. }
    destruct (looks_in f f' l1 _ p F Hp1) as (p' & Hp' & LK). exists (Some p'). split; [|exists p; auto].
    cbn. pose proof (lk_key _ _ _ _ LK) as LKK. fold g g' in LKK. rewrite <- LKK. rewrite (dict_get_spec g' p' W' Hp'). reflexivity. }
  destruct PA as (parent & EP & HP).
  assert (AD : admissible g' (basins_of g x) parent).
  { split.
    - intros p' ->. destruct HP as (p & P & Hp1 & Hp' & LK). split; [exact Hp'|].
      destruct (wf_parent g W x p Hx P) as (Hp & Rp & Bp & Ip).
      unfold reducible. fold g' in LK. pose proof (lk_red _ _ _ _ LK) as LR. fold g g' in LR. rewrite LR. split; [exact Rp|].
      pose proof (lk_basins _ _ _ _ LK) as LB. fold g g' in LB. rewrite LB. exact Ip.
    - intros j b Hj Pj Hb Hb'. destruct (looks_out f f' l1 _ j F Hj) as (i & Hi & LK).
      pose proof (lk_basins _ _ _ _ LK) as LB. fold g g' in LB. rewrite LB in Hb'.
      assert (PK : parent_key g i = parent_key g x).
      { pose proof (lk_parent _ _ _ _ LK) as LP. fold g g' in LP. rewrite <- LP. unfold parent_key at 1. rewrite Pj.
        destruct parent as [p'|]; [|now symmetry]. destruct HP as (p & P & Hp1 & Hp' & LKp).
        pose proof (lk_key _ _ _ _ LKp) as LKK. fold g g' in LKK. rewrite LKK. unfold parent_key. now rewrite P. }
      apply (wf_disjoint g W i x b); auto; [congruence|]. now apply parent_key_same; auto. }
  assert (KN : forall k, Some (key_of g x) = Some k -> ~ In k (map fst (g_keys g'))).
  { intros k [= <-] H. apply in_map_iff in H as ((k, j) & Ek & H). cbn in Ek. subst k.
    apply (wf_keys g' W') in H as (Hj & Kj). destruct (looks_out f f' l1 _ j F Hj) as (i & Hi & LK).
    pose proof (lk_key _ _ _ _ LK) as LKK. fold g g' in LKK. apply Nx.
    rewrite <- (wf_key_inj g i x W (L1 i Hi) Hx); [exact Hi|congruence]. }
  destruct (add_effect g' (n_red (g_heap g x)) (basins_of g x) (0 <? y_dim (f_pay f x)) (n_min (g_heap g x))
              (n_max (g_heap g x)) (Some (key_of g x)) parent W' AD KN) as (g2 & n & k & E2 & Kk & Nk & A).
  specialize (Kk _ eq_refl). subst k.
  pose proof (wf_fresh g' W') as Fr. rewrite <- (a_id _ _ _ _ _ _ _ _ _ _ A) in Fr.
  pose proof (a_node _ _ _ _ _ _ _ _ _ _ A) as AN.
  assert (ED : exists f2, node_from_dict f' (node_to_dict f x) = Done f2 /\ f_graph f2 = g2 /\
     (forall j, j <> n -> f_pay f2 j = f_pay f' j) /\
     y_dim (f_pay f2 n) = y_dim (f_pay f x) /\ y_atoms (f_pay f2 n) = y_atoms (f_pay f x) /\
     y_subtype (f_pay f2 n) = y_subtype (f_pay f x) /\
     (n_red (g_heap g x) = false -> y_min_surf (f_pay f2 n) = y_min_surf (f_pay f x) /\
        y_avg_surf (f_pay f2 n) = y_avg_surf (f_pay f x)) /\
     f_type f2 = f_type f' /\ f_maxima f2 = f_maxima f' /\ f_charges f2 = f_charges f' /\ f_volumes f2 = f_volumes f').
  { unfold node_from_dict, node_to_dict.
    cbn [d_type d_surf d_parent d_basins d_dim d_min d_max d_key d_atoms d_subtype].
    fold g. fold g'. unfold parent_key, parent_of, key_of in EP. unfold key_of, basins_of in E2.
    destruct (n_red (g_heap g x)) eqn:R; rewrite EP; cbn [obind]; rewrite E2; cbn [obind];
      (eexists; split; [reflexivity|]); cbn [f_graph f_pay f_type f_maxima f_charges f_volumes];
      rewrite ?Nat.eqb_refl; cbn [y_dim y_atoms y_subtype y_min_surf y_avg_surf];
      (split; [reflexivity|]; split; [intros j Hj; destruct (Nat.eqb_spec n j); [congruence|reflexivity]|];
       repeat (split; [reflexivity|]); split; [intros H; try discriminate; now split|]; now repeat split). }
  destruct ED as (f2 & ED & G2 & PY & PD & PAT & PS & PSU & REST).
  exists f2. split; [exact ED|]. rewrite G2. split; [exact (added_wf _ _ _ _ _ _ _ _ _ _ W' AD Nk A)|].
  split; [|exact REST]. rewrite (a_nodes _ _ _ _ _ _ _ _ _ _ A). apply Forall2_app.
  - (* old nodes *)
    assert (OLD : forall j, In j (g_nodes g') -> static (g_heap g2 j) = static (g_heap g' j) /\
       parent_of g2 j = parent_of g' j /\ n_max (g_heap g2 j) = n_max (g_heap g' j) /\ f_pay f2 j = f_pay f' j).
    { intros j Hj. assert (Nj : j <> n) by (intros ->; contradiction).
      destruct (a_other _ _ _ _ _ _ _ _ _ _ A j Nj) as (S1 & S2 & S3 & _). rewrite (PY j Nj). auto. }
    assert (FA : Forall2 (fun i i' => looks_like f f' i i' /\ In i' (g_nodes g')) l1 (g_nodes g')).
    { assert (AUX : forall m m', Forall2 (looks_like f f') m m' -> incl m' (g_nodes g') ->
        Forall2 (fun i i' => looks_like f f' i i' /\ In i' (g_nodes g')) m m').
      { induction 1; intro I; constructor; [split; [assumption|apply I; now left]|apply IHForall2; intros z Hz; apply I; now right]. }
      apply AUX; [exact F|apply incl_refl]. }
    eapply Forall2_weaken; [|exact FA]. intros i i' (LK & Hi'). destruct (OLD i' Hi') as (S1 & S2 & S3 & S4).
    apply static_fields in S1 as (T1 & T2 & T3 & T4 & T5). destruct LK as [K1 K2 K3 K4 K5 K6 K7 K8 K9 K10 K11].
    unfold key_of, basins_of in *. fold g g' in K1, K2, K3, K4, K5, K6, K7, K11. constructor; rewrite ?G2; unfold key_of, basins_of; fold g;
      rewrite ?S3, ?S4; try congruence.
    + unfold parent_key. rewrite S2. unfold parent_key in K7 at 1. fold (parent_key g i) in *. rewrite <- K7.
      destruct (parent_of g' i') as [p|] eqn:P; [|reflexivity].
      destruct (wf_parent g' W' i' p Hi' P) as (Hp & _). destruct (OLD p Hp) as (U & _).
      apply static_fields in U as (U1 & _). unfold key_of. congruence.
    + exact K11.
  - constructor; [|constructor]. constructor; rewrite ?G2; unfold key_of, basins_of; fold g; rewrite ?AN;
      cbn [n_key n_red n_basins n_min n_max n_infinite]; try reflexivity; try assumption.
    + symmetry. now apply DA.
    + unfold parent_key at 1. unfold parent_of at 1. rewrite AN. cbn [n_parent].
      destruct parent as [p'|]; [|now symmetry]. destruct HP as (p & P & Hp1 & Hp' & LK).
      unfold parent_key. rewrite P. f_equal.
      assert (Np : p' <> n) by (intros ->; contradiction).
      destruct (a_other _ _ _ _ _ _ _ _ _ _ A p' Np) as (S1 & _). apply static_fields in S1 as (S1 & _).
      pose proof (lk_key _ _ _ _ LK) as LKK. fold g g' in LKK. unfold key_of in *. congruence.
Qed.

Lemma add_dicts_ok f l2 : forall l1 f', well_formed (f_graph f) -> dims_agree f -> g_nodes (f_graph f) = l1 ++ l2 ->
  well_formed (f_graph f') -> Forall2 (looks_like f f') l1 (g_nodes (f_graph f')) ->
  exists f2, add_dicts f' (map (node_to_dict f) l2) = Done f2 /\ well_formed (f_graph f2) /\
    Forall2 (looks_like f f2) (g_nodes (f_graph f)) (g_nodes (f_graph f2)) /\
    f_type f2 = f_type f' /\ f_maxima f2 = f_maxima f' /\ f_charges f2 = f_charges f' /\ f_volumes f2 = f_volumes f'.
Proof.
  induction l2 as [|x t IH]; intros l1 f' W DA EN W' F.
  - exists f'. cbn. split; [reflexivity|]. split; [exact W'|]. rewrite app_nil_r in EN. rewrite EN. auto.
  - destruct (add_dict_step f f' l1 x t W DA EN W' F) as (f1 & E1 & W1 & F1 & R1 & R2 & R3 & R4).
    cbn [map add_dicts]. rewrite E1. cbn [obind].
    destruct (IH (l1 ++ [x]) f1 W DA) as (f2 & E2 & W2 & F2 & Q1 & Q2 & Q3 & Q4); auto.
    { rewrite EN, <- app_assoc. reflexivity. }
    exists f2. repeat (split; [assumption|]). repeat split; congruence.
Qed.

Lemma looks_children f f' i i' : well_formed (f_graph f) -> well_formed (f_graph f') ->
  Forall2 (looks_like f f') (g_nodes (f_graph f)) (g_nodes (f_graph f')) ->
  In i (g_nodes (f_graph f)) -> In i' (g_nodes (f_graph f')) -> looks_like f f' i i' ->
  Permutation (map (key_of (f_graph f')) (children_of (f_graph f') i')) (map (key_of (f_graph f)) (children_of (f_graph f) i)).
Proof.
  intros W W' F Hi Hi' LK. set (g := f_graph f) in *. set (g' := f_graph f') in *.
  assert (ND : forall h p, well_formed h -> In p (g_nodes h) -> NoDup (map (key_of h) (children_of h p))).
  { intros h p Wh Hp. pose proof (wf_children_nodup h Wh p Hp) as N.
    assert (S : incl (children_of h p) (g_nodes h)) by (intros c Hc; now apply (wf_children h Wh p c Hp) in Hc).
    revert N S. generalize (children_of h p) as l. induction l as [|c t IH]; intros N S; cbn; constructor.
    - inversion N; subst. intro H. apply in_map_iff in H as (d & Ed & Hd).
      rewrite (wf_key_inj h d c Wh) in Hd; [contradiction|apply S; now right|apply S; now left|exact Ed].
    - inversion N; subst. apply IH; [assumption|]. intros z Hz. apply S. now right. }
  apply NoDup_Permutation; [now apply ND|now apply ND|]. intro k. split; intro H.
  - apply in_map_iff in H as (c' & <- & Hc'). apply (wf_children g' W' i' c' Hi') in Hc' as (Hc' & Pc').
    destruct (looks_out f f' _ _ c' F Hc') as (c & Hc & LKc). pose proof (lk_key _ _ _ _ LKc) as K. fold g g' in K.
    rewrite K. apply in_map. apply (wf_children g W i c Hi). split; [exact Hc|].
    pose proof (lk_parent _ _ _ _ LKc) as P. fold g g' in P. unfold parent_key in P. rewrite Pc' in P.
    pose proof (lk_key _ _ _ _ LK) as Ki. fold g g' in Ki. destruct (parent_of g c) as [p|] eqn:Pp; [|discriminate].
    injection P as P. f_equal. destruct (wf_parent g W c p Hc Pp) as (Hp & _). apply (wf_key_inj g p i W Hp Hi). congruence.
  - apply in_map_iff in H as (c & <- & Hc). apply (wf_children g W i c Hi) in Hc as (Hc & Pc).
    destruct (looks_in f f' _ _ c F Hc) as (c' & Hc' & LKc). pose proof (lk_key _ _ _ _ LKc) as K. fold g g' in K.
    rewrite <- K. apply in_map. apply (wf_children g' W' i' c' Hi'). split; [exact Hc'|].
    pose proof (lk_parent _ _ _ _ LKc) as P. fold g g' in P. unfold parent_key in P. rewrite Pc in P.
    pose proof (lk_key _ _ _ _ LK) as Ki. fold g g' in Ki. destruct (parent_of g' c') as [p|] eqn:Pp; [|discriminate].
    injection P as P. f_equal. destruct (wf_parent g' W' c' p Hc' Pp) as (Hp & _). apply (wf_key_inj g' p i' W' Hp Hi'). congruence.
Qed.
