(** Which nodes [_remove_shallow_reducible_nodes] removes. *)
From Coq Require Import QArith Lqa.
From Verif Require Import Base RootsModel UnionModel LabelsModel NodesModel NodesSpec NodesProofs NodesEdit NodesTop
  CoordMerge.
Local Open Scope Z_scope.

(** [p] is the first node that satisfies [K] on the way from [i] to its root. *)
Inductive nearest (g : graph) (K : nat -> Prop) : nat -> nat -> Prop :=
| near_parent i p : parent_of g i = Some p -> K p -> nearest g K i p
| near_up i q p : parent_of g i = Some q -> ~ K q -> nearest g K q p -> nearest g K i p.

(** The range of values of a node. *)
Definition range_of (g : graph) (i : nat) : Q := (n_max (g_heap g i) - n_min (g_heap g i))%Q.

Lemma nearest_fun g K i p : nearest g K i p -> forall p', nearest g K i p' -> p = p'.
Proof.
  induction 1 as [i p E H|i q p E N H IH]; intros p' H'; inversion H' as [? ? E' K'|? ? ? E' K' H2]; subst;
    rewrite E in E'; injection E' as <-; first [reflexivity|contradiction|now apply IH].
Qed.

Lemma nearest_K g K i p : nearest g K i p -> K p.
Proof. induction 1; assumption. Qed.
Lemma nearest_anc g K i p : nearest g K i p -> ancestor g p i.
Proof. induction 1; [now apply anc_parent|eapply anc_step; eauto]. Qed.

Lemma nearest_ext g (K K' : nat -> Prop) i p : nearest g K i p ->
  (forall q, ancestor g q i -> K q <-> K' q) -> nearest g K' i p.
Proof.
  induction 1 as [i p E H|i q p E N H IH]; intro X.
  - apply near_parent; [exact E|]. apply X; [now apply anc_parent|exact H].
  - apply (near_up g K' i q p E).
    + intro H'. apply N. apply X; [now apply anc_parent|exact H'].
    + apply IH. intros a A. apply X. eapply anc_step; eauto.
Qed.

(** Leaving [x] out. *)
Lemma nearest_other g K x j p : nearest g K j p -> p <> x -> nearest g (fun q => K q /\ q <> x) j p.
Proof.
  induction 1 as [i p E H|i q p E N H IH]; intro X.
  - now apply near_parent.
  - apply (near_up g _ i q p E); [tauto|auto].
Qed.
Lemma nearest_through g K x j p : nearest g K j x -> nearest g (fun q => K q /\ q <> x) x p ->
  nearest g (fun q => K q /\ q <> x) j p.
Proof.
  intro H. remember x as y eqn:Ey in H. induction H as [i y E H|i q y E N H IH]; intro X; subst.
  - apply (near_up g _ i x p E); [tauto|exact X].
  - apply (near_up g _ i q p E); [tauto|]. now apply IH.
Qed.

Lemma nearest_same g (K K' : nat -> Prop) i p : (forall q, K q <-> K' q) -> nearest g K i p -> nearest g K' i p.
Proof. intros X H. eapply nearest_ext; eauto. Qed.

(** ** Cached depths survive edits *)
Lemma on_node_depth g i f j : (forall n, n_depth (f n) = n_depth n) ->
  n_depth (g_heap (on_node g i f) j) = n_depth (g_heap g j).
Proof. intro F. cbn. rewrite hset_eq. destruct (Nat.eqb_spec i j); [subst; apply F|reflexivity]. Qed.

Lemma set_parents_depth p cs : forall g g' j, set_parents g cs p = Done g' ->
  n_depth (g_heap g' j) = n_depth (g_heap g j).
Proof.
  induction cs as [|c t IH]; intros g g' j E; cbn [set_parents] in E; [now injection E as <-|].
  destruct (set_parent g c p) as [g1| |] eqn:E1; try discriminate. cbn [obind] in E.
  rewrite (IH g1 g' j E). unfold set_parent in E1. destruct (n_parent (g_heap g c)) as [old|]; [|discriminate].
  destruct (negb (n_red (g_heap g old))); [discriminate|]. set (g2 := on_node (on_node g old _) c _) in E1.
  destruct (negb (n_red (g_heap g2 p))); [discriminate|]. injection E1 as <-.
  rewrite on_node_depth by reflexivity. unfold g2. rewrite !on_node_depth by reflexivity. reflexivity.
Qed.

Lemma roots_depth cs : forall g j, n_depth (g_heap (fold_left (fun g c =>
    on_node (with_roots g (g_roots g ++ [c])) c (set_parent_f None)) cs g) j) = n_depth (g_heap g j).
Proof.
  induction cs as [|c t IH]; intros g j; cbn [fold_left]; [reflexivity|]. rewrite IH.
  rewrite on_node_depth by reflexivity. reflexivity.
Qed.

Lemma delete_depth g i g' j : delete g i = Done g' -> n_depth (g_heap g' j) = n_depth (g_heap g j).
Proof. unfold delete. destruct (dict_has _ _); [|discriminate]. now intros [= <-]. Qed.

Lemma remove_depth g i g' : remove g i = Done g' -> forall j, n_depth (g_heap g' j) = n_depth (g_heap g j).
Proof.
  unfold remove, remove_reducible, remove_irreducible. intros E j. destruct (n_red (g_heap g i)).
  - destruct (n_parent (g_heap g i)) as [p|].
    + destruct (set_parents g (n_children (g_heap g i)) p) as [g1| |] eqn:E1; try discriminate.
      cbn [obind] in E. apply (delete_depth _ _ _ j) in E. rewrite E.
      rewrite !on_node_depth by reflexivity. eapply set_parents_depth; eauto.
    + cbn [obind] in E. apply (delete_depth _ _ _ j) in E. rewrite E, roots_depth. reflexivity.
  - destruct (n_parent (g_heap g i)) as [p|]; [|discriminate].
    destruct (negb (n_red (g_heap g p))); [discriminate|].
    apply (delete_depth _ _ _ j) in E. rewrite E. now rewrite on_node_depth by reflexivity.
Qed.

(** What [depth] returns. *)
Definition shown_depth (g : graph) (i : nat) : Q :=
  match n_depth (g_heap g i) with Some d => d | None => range_of g i end.

Lemma get_depth_val g i : snd (get_depth g i) = shown_depth g i.
Proof. unfold get_depth, shown_depth, range_of. now destruct (n_depth (g_heap g i)). Qed.
Lemma get_depth_cache g i j : n_depth (g_heap (fst (get_depth g i)) j) =
  if Nat.eqb i j then Some (shown_depth g i) else n_depth (g_heap g j).
Proof.
  unfold get_depth, shown_depth, range_of. destruct (n_depth (g_heap g i)) eqn:D; cbn [fst].
  - destruct (Nat.eqb_spec i j); [now subst|reflexivity].
  - cbn. rewrite hset_eq. now destruct (Nat.eqb_spec i j).
Qed.
Lemma get_depth_shown g i j : shown_depth (fst (get_depth g i)) j = shown_depth g j.
Proof.
  pose proof (get_depth_sim g i) as (_ & _ & SS & _ & _ & SM). unfold shown_depth, range_of. rewrite get_depth_cache.
  destruct (Nat.eqb_spec i j); [subst; unfold shown_depth, range_of; reflexivity|].
  destruct (n_depth (g_heap g j)); [reflexivity|]. now rewrite SM, (static_min g _ j SS).
Qed.

(** ** The invariant of the loop *)
Record pruned (g0 g : graph) : Prop := {
  pr_wf : well_formed g;
  pr_static : same_static g0 g;
  pr_in : forall j, In j (g_nodes g) -> In j (g_nodes g0);
  pr_parent : forall j, In j (g_nodes g) -> match parent_of g j with
     | Some p => nearest g0 (fun q => In q (g_nodes g)) j p
     | None => parent_of g0 j = None
     end;
  pr_depth : forall j, In j (g_nodes g) -> match n_depth (g_heap g j) with
     | Some d => d = range_of g0 j
     | None => n_max (g_heap g j) = n_max (g_heap g0 j)
     end;
  pr_leaf : forall j, In j (g_nodes g) -> ~ reducible g0 j -> n_max (g_heap g j) = n_max (g_heap g0 j)
}.

Lemma pruned_refl g : well_formed g -> (forall j, In j (g_nodes g) -> n_depth (g_heap g j) = None) -> pruned g g.
Proof.
  intros W D. constructor; auto; [intro; reflexivity| |].
  - intros j Hj. destruct (parent_of g j) as [p|] eqn:P; [|reflexivity]. apply near_parent; [exact P|].
    now apply (wf_parent g W j p Hj P).
  - intros j Hj. now rewrite (D j Hj).
Qed.

Lemma pruned_shown g0 g j : pruned g0 g -> In j (g_nodes g) -> shown_depth g j = range_of g0 j.
Proof.
  intros P Hj. pose proof (pr_depth g0 g P j Hj) as D. unfold shown_depth. destruct (n_depth (g_heap g j)); [exact D|].
  unfold range_of. now rewrite D, (static_min g0 g j (pr_static g0 g P)).
Qed.

Lemma pruned_depth g0 g i : pruned g0 g -> In i (g_nodes g) -> pruned g0 (fst (get_depth g i)).
Proof.
  intros P Hi. pose proof (get_depth_sim g i) as S. pose proof (sim_wf _ _ S (pr_wf g0 g P)) as W.
  destruct S as ((A1 & A2 & A3) & A4 & A5 & A6 & A7 & A8).
  constructor; auto.
  - eapply static_trans; [apply (pr_static g0 g P)|exact A5].
  - rewrite A2. apply (pr_in g0 g P).
  - intros j Hj. rewrite A2 in *. rewrite A6. now apply (pr_parent g0 g P).
  - intros j Hj. rewrite A2 in Hj. rewrite get_depth_cache, A8. destruct (Nat.eqb_spec i j).
    + subst. now apply pruned_shown.
    + now apply (pr_depth g0 g P).
  - intros j Hj. rewrite A2 in Hj. rewrite A8. now apply (pr_leaf g0 g P).
Qed.

Lemma pruned_remove g0 g x p g' : pruned g0 g -> In x (g_nodes g) -> reducible g x -> parent_of g x = Some p ->
  n_depth (g_heap g p) <> None -> remove g x = Done g' ->
  pruned g0 g' /\ g_nodes g' = without x (g_nodes g).
Proof.
  intros P Hx Rx Px Dp E. pose proof (pr_wf g0 g P) as W.
  destruct (remove_ok g x W Hx (or_introl Rx)) as (g1 & E1 & EF). rewrite E in E1. injection E1 as <-.
  pose proof (remove_depth g x g' E) as RD. pose proof (e_nodes g g' x EF) as EN.
  assert (IN : forall j, In j (g_nodes g') <-> In j (g_nodes g) /\ j <> x) by (intro j; rewrite EN; apply in_without).
  assert (Npx : p <> x) by (now apply (wf_parent_neq g x p W Hx)).
  destruct (wf_parent g W x p Hx Px) as (Hp & Rp & _).
  split; [|exact EN]. constructor.
  - now apply (eff_wf g g' x).
  - eapply static_trans; [apply (pr_static g0 g P)|apply (e_static g g' x EF)].
  - intros j Hj. apply (pr_in g0 g P), IN, Hj.
  - intros j Hj. apply IN in Hj as (Hj & Njx). pose proof (pr_parent g0 g P j Hj) as Q.
    assert (NX : nearest g0 (fun q => In q (g_nodes g) /\ q <> x) x p).
    { apply nearest_other; [|exact Npx]. pose proof (pr_parent g0 g P x Hx) as Qx. now rewrite Px in Qx. }
    destruct (eff_parent g g' x j W Hx EF Hj) as [(A & B)|(A & B)].
    + rewrite B, Px. rewrite A in Q.
      apply (nearest_same g0 (fun q => In q (g_nodes g) /\ q <> x)); [intro q; symmetry; apply IN|].
      now apply nearest_through.
    + rewrite B. destruct (parent_of g j) as [r|]; [|exact Q].
      apply (nearest_same g0 (fun q => In q (g_nodes g) /\ q <> x)); [intro q; symmetry; apply IN|].
      apply nearest_other; [exact Q|congruence].
  - intros j Hj. apply IN in Hj as (Hj & Njx). rewrite RD. pose proof (pr_depth g0 g P j Hj) as Q.
    destruct (n_depth (g_heap g j)) eqn:D; [exact Q|]. rewrite (e_max g g' x EF); [exact Q|]. congruence.
  - intros j Hj Rj. apply IN in Hj as (Hj & Njx). rewrite (e_max g g' x EF); [now apply (pr_leaf g0 g P)|].
    rewrite Px. intros [= <-]. apply Rj. unfold reducible. now rewrite <- (static_red g0 g p (pr_static g0 g P)).
Qed.

Lemma Qeq_bool_false a b : Qeq_bool a b = false -> ~ (a == b)%Q.
Proof. intros H X. apply Qeq_bool_iff in X. congruence. Qed.

(** One node. *)
Lemma step_cases cutoff g0 g x : pruned g0 g -> In x (g_nodes g) -> reducible g x ->
  (parent_of g0 x = None /\ shallow_step cutoff g x = Raised) \/
  exists p, nearest g0 (fun q => In q (g_nodes g)) x p /\
    (((range_of g0 p == 0)%Q /\ shallow_step cutoff g x = Raised) \/
     (~ (range_of g0 p == 0)%Q /\ exists g1, shallow_step cutoff g x = Done g1 /\ pruned g0 g1 /\
        n_depth (g_heap g1 x) <> None /\ n_depth (g_heap g1 p) <> None /\
        (forall j, n_depth (g_heap g j) <> None -> n_depth (g_heap g1 j) <> None) /\
        (((cutoff < range_of g0 x / range_of g0 p)%Q /\ g_nodes g1 = g_nodes g) \/
         (~ (cutoff < range_of g0 x / range_of g0 p)%Q /\ g_nodes g1 = without x (g_nodes g))))).
Proof.
  intros P Hx Rx. pose proof (pr_parent g0 g P x Hx) as Q. unfold shallow_step. fold (parent_of g x).
  destruct (parent_of g x) as [p|] eqn:Px; [|now left]. right. exists p. split; [exact Q|].
  pose proof (pruned_depth g0 g x P Hx) as P1. pose proof (get_depth_val g x) as V1.
  pose proof (get_depth_cache g x) as C1. pose proof (get_depth_sim g x) as S1.
  destruct (get_depth g x) as [g1 d]. cbn [fst snd] in *.
  assert (Hp : In p (g_nodes g)) by now apply (wf_parent g (pr_wf g0 g P) x p Hx Px).
  assert (Hp1 : In p (g_nodes g1)) by (destruct S1 as ((_ & -> & _) & _); exact Hp).
  pose proof (pruned_depth g0 g1 p P1 Hp1) as P2. pose proof (get_depth_val g1 p) as V2.
  pose proof (get_depth_cache g1 p) as C2. pose proof (get_depth_sim g1 p) as S2.
  destruct (get_depth g1 p) as [g2 dp]. cbn [fst snd] in *.
  pose proof (sim_trans _ _ _ S1 S2) as S. clear S1 S2.
  rewrite (pruned_shown g0 g x P Hx) in V1. rewrite (pruned_shown g0 g1 p P1 Hp1) in V2. subst d dp.
  assert (Dx : n_depth (g_heap g2 x) <> None).
  { rewrite C2. destruct (Nat.eqb p x); [discriminate|]. rewrite C1, Nat.eqb_refl. discriminate. }
  assert (Dp : n_depth (g_heap g2 p) <> None) by (rewrite C2, Nat.eqb_refl; discriminate).
  assert (Dj : forall j, n_depth (g_heap g j) <> None -> n_depth (g_heap g2 j) <> None).
  { intros j Hj. rewrite C2. destruct (Nat.eqb p j); [discriminate|]. rewrite C1. destruct (Nat.eqb x j); [discriminate|exact Hj]. }
  destruct S as ((A1 & A2 & A3) & A4 & A5 & A6 & A7 & A8).
  destruct (Qeq_bool (range_of g0 p) 0) eqn:Z; [left; split; [now apply Qeq_bool_iff|reflexivity]|].
  right. split; [now apply Qeq_bool_false|]. destruct (Qltb cutoff (range_of g0 x / range_of g0 p)) eqn:L.
  - exists g2. split; [reflexivity|]. split; [exact P2|]. do 3 (split; [assumption|]). left. split; [now apply Qltb_lt|exact A2].
  - assert (Hx2 : In x (g_nodes g2)) by (now rewrite A2).
    assert (Rx2 : reducible g2 x) by (unfold reducible; now rewrite (static_red g g2 x A5)).
    destruct (remove_ok g2 x (pr_wf g0 g2 P2) Hx2 (or_introl Rx2)) as (g3 & E3 & _).
    destruct (pruned_remove g0 g2 x p g3 P2 Hx2 Rx2) as (P3 & N3); auto; [now rewrite A6|].
    pose proof (remove_depth g2 x g3 E3) as RD.
    exists g3. split; [exact E3|]. split; [exact P3|]. rewrite !RD. do 2 (split; [assumption|]).
    split; [intros j Hj; rewrite RD; auto|]. right.
    split; [|now rewrite N3, A2]. intro H. apply Qltb_lt in H. congruence.
Qed.

(** The loop. *)
Lemma prune_loop cutoff g0 l : forall g g', pruned g0 g -> NoDup l ->
  (forall x, In x l -> In x (g_nodes g) /\ reducible g0 x) ->
  StronglySorted Qle (map (fun i => n_min (g_heap g0 i)) l) ->
  (forall x q, In x l -> ancestor g0 q x -> (n_min (g_heap g0 q) < n_min (g_heap g0 x))%Q) ->
  shallow_loop cutoff g l = Done g' ->
  pruned g0 g' /\ (forall j, In j (g_nodes g') -> In j (g_nodes g)) /\
  (forall j, In j (g_nodes g) -> ~ In j l -> In j (g_nodes g')) /\
  (forall j, n_depth (g_heap g j) <> None -> n_depth (g_heap g' j) <> None) /\
  forall x, In x l -> n_depth (g_heap g' x) <> None /\
    exists p, nearest g0 (fun q => In q (g_nodes g')) x p /\ ~ (range_of g0 p == 0)%Q /\
    n_depth (g_heap g' p) <> None /\
    (In x (g_nodes g') <-> (cutoff < range_of g0 x / range_of g0 p)%Q).
Proof.
  induction l as [|x t IH]; intros g g' P N HX SS AN E.
  { injection E as <-. split; [exact P|]. do 3 (split; [tauto|]). intros x []. }
  inversion N as [|? ? Nx Nt]; subst. cbn [map] in SS. apply StronglySorted_inv in SS as (SS & SX).
  cbn [shallow_loop] in E. destruct (HX x (or_introl eq_refl)) as (Hx & Rx).
  assert (Rx' : reducible g x) by (unfold reducible; now rewrite (static_red g0 g x (pr_static g0 g P))).
  destruct (step_cases cutoff g0 g x P Hx Rx') as [(_ & E1)|(p & NP & [(_ & E1)|(Z & g1 & E1 & P1 & D1 & D2 & D3 & CASE)])];
    rewrite E1 in E; try discriminate. cbn [obind] in E.
  assert (SUB : forall j, In j (g_nodes g1) -> In j (g_nodes g)).
  { intros j Hj. destruct CASE as [(_ & EN)|(_ & EN)]; rewrite EN in Hj; [exact Hj|]. apply in_without in Hj. tauto. }
  assert (SUP : forall j, In j (g_nodes g) -> j <> x -> In j (g_nodes g1)).
  { intros j Hj Nj. destruct CASE as [(_ & EN)|(_ & EN)]; rewrite EN; [exact Hj|]. apply in_without. tauto. }
  destruct (IH g1 g' P1 Nt) as (K1 & K2 & K3 & KD & K4); auto.
  { intros y Hy. destruct (HX y (or_intror Hy)) as (A & B). split; [|exact B]. apply SUP; [exact A|]. intros ->. contradiction. }
  { intros y q Hy. apply AN. now right. }
  split; [exact K1|]. split; [auto|]. split; [|split; [auto|]].
  { intros j Hj Nj. simpl in Nj. apply K3; [|tauto]. apply SUP; [exact Hj|]. intros ->. tauto. }
  intros y [<-|Hy]; [|now apply K4]. split; [auto|]. exists p.
  assert (NL : forall q, ancestor g0 q x -> ~ In q (x :: t)).
  { intros q A [<-|H].
    - pose proof (AN x x (or_introl eq_refl) A). lra.
    - pose proof (AN x q (or_introl eq_refl) A) as L. rewrite Forall_forall in SX.
      specialize (SX (n_min (g_heap g0 q)) (in_map _ _ _ H)). lra. }
  split; [|split; [exact Z|split; [auto|]]].
  - eapply nearest_ext; [exact NP|]. intros q A. pose proof (NL q A) as L. simpl in L.
    split; intro H; [apply K3; [apply SUP; [exact H|]; intros ->; tauto|tauto]|auto].
  - destruct CASE as [(L & EN)|(L & EN)].
    + split; [auto|]. intros _. apply K3; [now rewrite EN|exact Nx].
    + split; [|tauto]. intro H. apply K2 in H. rewrite EN in H. apply in_without in H. tauto.
Qed.

Lemma prune_total cutoff g0 l : forall g, pruned g0 g -> NoDup l ->
  (forall x, In x l -> In x (g_nodes g) /\ reducible g0 x /\ parent_of g0 x <> None) ->
  (forall p, In p (g_nodes g0) -> reducible g0 p -> ~ (range_of g0 p == 0)%Q) ->
  (forall i p, In i (g_nodes g) -> ancestor g0 p i -> reducible g0 p) ->
  exists g', shallow_loop cutoff g l = Done g'.
Proof.
  induction l as [|x t IH]; intros g P N HX HZ HA; [now exists g|].
  inversion N as [|? ? Nx Nt]; subst. destruct (HX x (or_introl eq_refl)) as (Hx & Rx & Px).
  assert (Rx' : reducible g x) by (unfold reducible; now rewrite (static_red g0 g x (pr_static g0 g P))).
  cbn [shallow_loop].
  destruct (step_cases cutoff g0 g x P Hx Rx') as [(A & _)|(p & NP & [(Z & _)|(Z & g1 & E1 & P1 & D1 & D2 & D3 & CASE)])].
  - contradiction.
  - exfalso. revert Z. apply HZ; [apply (pr_in g0 g P); exact (nearest_K _ _ _ _ NP)|].
    apply (HA x p Hx). now apply nearest_anc in NP.
  - rewrite E1. cbn [obind]. apply IH; auto.
    + intros y Hy. destruct (HX y (or_intror Hy)) as (A & B). split; [|exact B].
      destruct CASE as [(_ & ->)|(_ & ->)]; [exact A|]. apply in_without. split; [exact A|]. intros ->. contradiction.
    + intros i q Hi. apply HA. destruct CASE as [(_ & EN)|(_ & EN)]; rewrite EN in Hi; [exact Hi|].
      apply in_without in Hi. tauto.
Qed.

(** The order. *)
Lemma sorted_reducible_sorted argsort g : sorts argsort ->
  StronglySorted Qle (map (fun i => n_min (g_heap g i)) (sorted_reducible argsort g)).
Proof.
  intros S. unfold sorted_reducible. set (l := filter _ (g_nodes g)).
  destruct (S (map (fun i => n_min (g_heap g i)) l)) as (P & SS). rewrite map_map.
  rewrite (map_ext_in _ (fun t => nth t (map (fun i => n_min (g_heap g i)) l) 0%Q)); [exact SS|].
  intros a Ha. apply (Permutation_in _ P), in_seq in Ha. rewrite map_length in Ha.
  rewrite (nth_indep _ 0%Q (n_min (g_heap g 0%nat))) by (rewrite map_length; lia).
  symmetry. apply (map_nth (fun i => n_min (g_heap g i))).
Qed.

Lemma anc_min g : well_formed g ->
  (forall i p, In i (g_nodes g) -> reducible g i -> parent_of g i = Some p -> (n_min (g_heap g p) < n_min (g_heap g i))%Q) ->
  forall q i, ancestor g q i -> In i (g_nodes g) -> reducible g i -> (n_min (g_heap g q) < n_min (g_heap g i))%Q.
Proof.
  intros W M q i A. induction A as [i P|i p P A IH]; intros Hi Ri; [eauto|].
  destruct (wf_parent g W i p Hi P) as (Hp & Rp & _). pose proof (M i p Hi Ri P). specialize (IH Hp Rp). lra.
Qed.

Lemma head_root argsort g h t : sorts argsort -> well_formed g ->
  (forall i p, In i (g_nodes g) -> reducible g i -> parent_of g i = Some p -> (n_min (g_heap g p) < n_min (g_heap g i))%Q) ->
  sorted_reducible argsort g = h :: t -> parent_of g h = None.
Proof.
  intros S W M E. destruct (sorted_reducible_ok argsort g S (wf_nodup g W)) as (N & I).
  pose proof (sorted_reducible_sorted argsort g S) as SS. rewrite E in *. cbn [map] in SS.
  apply StronglySorted_inv in SS as (_ & SX). destruct (proj1 (I h) (or_introl eq_refl)) as (Hh & Rh).
  destruct (parent_of g h) as [p|] eqn:P; [exfalso|reflexivity].
  destruct (wf_parent g W h p Hh P) as (Hp & Rp & _). pose proof (M h p Hh Rh P) as L.
  destruct (proj2 (I p) (conj Hp Rp)) as [<-|H]; [lra|].
  rewrite Forall_forall in SX. specialize (SX _ (in_map _ _ _ H)). cbn in SX. lra.
Qed.
