(** Theorems about converting graphs to dictionaries and back. *)
From Coq Require Import QArith Permutation.
From Verif Require Import Base RootsModel UnionModel LabelsModel NodesModel NodesSpec NodesProofs NodesEdit NodesTop
  NodesProps DictModel DictSpec DictProofs CoordProps.
Local Open Scope Z_scope.

(** C40: reading back the dictionary of a graph gives a well formed graph with the same nodes in
    the same order: key, kind, basins, values, dimensionality, atoms, subtype, surface distances,
    and parents, children and roots with the same keys. *)
Theorem C40_round_trip : forall f, well_formed (f_graph f) -> dims_agree f ->
  exists f', fst (from_dict (to_dict f)) = Done f' /\ well_formed (f_graph f') /\
    Forall2 (looks_like f f') (g_nodes (f_graph f)) (g_nodes (f_graph f')) /\
    (forall i i', In i (g_nodes (f_graph f)) -> In i' (g_nodes (f_graph f')) -> looks_like f f' i i' ->
      Permutation (map (key_of (f_graph f')) (children_of (f_graph f') i'))
        (map (key_of (f_graph f)) (children_of (f_graph f) i))) /\
    (forall k, In k (map (key_of (f_graph f')) (g_roots (f_graph f'))) <->
               In k (map (key_of (f_graph f)) (g_roots (f_graph f)))) /\
    f_type f' = f_type f /\ f_maxima f' = f_maxima f /\ f_charges f' = f_charges f /\ f_volumes f' = f_volumes f.
Proof.
  intros f W DA.
  destruct (add_dicts_ok f (g_nodes (f_graph f)) [] (Full empty_graph (fun _ => no_payload) (f_type f) (f_maxima f)
    (f_charges f) (f_volumes f)) W DA eq_refl C39_empty (Forall2_nil _)) as (f' & E & W' & F & R).
  exists f'. split; [exact E|]. split; [exact W'|]. split; [exact F|]. split; [|split; [|exact R]].
  - intros i i' Hi Hi' LK. now apply looks_children.
  - intro k. split; intro H; apply in_map_iff in H as (r & <- & Hr).
    + apply (wf_roots _ W') in Hr as (Hr & Pr). destruct (looks_out f f' _ _ r F Hr) as (i & Hi & LK).
      rewrite (lk_key _ _ _ _ LK). apply in_map. apply (wf_roots _ W). split; [exact Hi|].
      pose proof (lk_parent _ _ _ _ LK) as P. unfold parent_key in P. rewrite Pr in P.
      destruct (parent_of (f_graph f) i); [discriminate|reflexivity].
    + apply (wf_roots _ W) in Hr as (Hr & Pr). destruct (looks_in f f' _ _ r F Hr) as (i & Hi & LK).
      rewrite <- (lk_key _ _ _ _ LK). apply in_map. apply (wf_roots _ W'). split; [exact Hi|].
      pose proof (lk_parent _ _ _ _ LK) as P. unfold parent_key in P. rewrite Pr in P.
      destruct (parent_of (f_graph f') i); [discriminate|reflexivity].
Qed.
Print Assumptions C40_round_trip.

(** Writing the dictionary of the graph read back gives the same dictionary. *)
Theorem C40_stable : forall f f', well_formed (f_graph f) -> dims_agree f ->
  fst (from_dict (to_dict f)) = Done f' -> to_dict f' = to_dict f.
Proof.
  intros f f' W DA E. destruct (C40_round_trip f W DA) as (f2 & E2 & _ & F & _ & _ & R1 & R2 & R3 & R4).
  rewrite E2 in E. injection E as <-. unfold to_dict. rewrite R1, R2, R3, R4. f_equal. f_equal.
  revert F. generalize (g_nodes (f_graph f)) (g_nodes (f_graph f2)).
  induction 1 as [|i i' l l' LK _ IH]; [reflexivity|]. cbn [map]. rewrite IH. f_equal.
  destruct LK as [K1 K2 K3 K4 K5 K6 K7 K8 K9 K10 K11]. unfold node_to_dict.
  unfold key_of, basins_of, parent_key, parent_of, key_of in *. rewrite K1, K2, K3, K4, K5, K7, K8, K9, K10.
  destruct (n_red (g_heap (f_graph f) i)); [reflexivity|]. destruct (K11 eq_refl) as (-> & ->). reflexivity.
Qed.
Print Assumptions C40_stable.

(** An edited tree (node 1 collapsed) with payload. *)
Definition ex_pay (i : nat) : payload :=
  Payload (if Nat.eqb i 0 then 3 else 0) [Z.of_nat i] (Some 7) (if Nat.eqb i 5 then 4 else 0) (Some 2) (Some 1%Q)
    (Some (1 # 2)%Q) (Some 2%Q).
Definition ex_full : full :=
  Full (oget_graph (edit_run sort_idx 9 ex_tree (Collapse 1))) ex_pay 1 [(0, 0, 0)%Q] [1%Q] [2%Q].
Example C40_ex_input : well_formed (f_graph ex_full) /\ dims_agree ex_full.
Proof.
  split.
  - unfold ex_full. cbn [f_graph]. destruct (edit_run sort_idx 9 ex_tree (Collapse 1)) as [g| |] eqn:E; [|exact C39_empty|exact C39_empty].
    apply (edit_one sort_idx 9 false ex_tree (Collapse 1) g sort_idx_sorts ex_tree_wf); [|exact E].
    vm_compute. tauto.
  - intros i Hi. assert (F : forallb (fun i => Bool.eqb (n_infinite (g_heap (f_graph ex_full) i)) (0 <? y_dim (f_pay ex_full i)))
      (g_nodes (f_graph ex_full)) = true) by (vm_compute; reflexivity).
    rewrite forallb_forall in F. exact (Bool.eqb_prop _ _ (F i Hi)).
Qed.
Example C40_ex : match fst (from_dict (to_dict ex_full)) with
  | Done f' => show (Done (f_graph f')) = Some
     ([(0%nat, 0, true, [0; 1; 2]%nat, None, [1; 2]%nat, 1%Q); (1%nat, 2, false, [2]%nat, Some 0%nat, [], 7%Q);
       (2%nat, 1, false, [0; 1]%nat, Some 0%nat, [], 6%Q)], [0%nat])
  | _ => False end.
Proof. vm_compute. reflexivity. Qed.

(** C63 is false: feature types, the nearest atomic sphere and the distance beyond the atom are
    not saved, *)
Theorem C63_features_refuted : exists f f' i i', well_formed (f_graph f) /\ dims_agree f /\
  fst (from_dict (to_dict f)) = Done f' /\ In i (g_nodes (f_graph f)) /\ In i' (g_nodes (f_graph f')) /\
  key_of (f_graph f') i' = key_of (f_graph f) i /\ n_red (g_heap (f_graph f) i) = false /\
  y_feature (f_pay f' i') <> y_feature (f_pay f i) /\ y_sphere (f_pay f' i') <> y_sphere (f_pay f i) /\
  y_beyond (f_pay f' i') <> y_beyond (f_pay f i).
Proof.
  exists ex_full. destruct C40_ex_input as (W & D). destruct (C40_round_trip ex_full W D) as (f' & E & _).
  exists f', 5%nat, 2%nat. split; [exact W|]. split; [exact D|]. split; [exact E|].
  assert (G : f' = match fst (from_dict (to_dict ex_full)) with Done x => x | _ => ex_full end) by now rewrite E.
  subst f'. split; [vm_compute; tauto|]. split; [vm_compute; tauto|]. split; [vm_compute; reflexivity|].
  split; [vm_compute; reflexivity|]. split; [vm_compute; discriminate|]. split; vm_compute; discriminate.
Qed.
Print Assumptions C63_features_refuted.

(** and a dictionary can be used only once. *)
Theorem C63_once_refuted : forall d, exists d', d' = snd (from_dict d) /\ fst (from_dict d') = Raised.
Proof. intro d. exists (snd (from_dict d)). split; [reflexivity|]. unfold from_dict. destruct (q_nodes d) eqn:E; cbn; [reflexivity|]. now rewrite E. Qed.
Print Assumptions C63_once_refuted.
