(** Marking of cores and shells. *)
From Coq Require Import QArith.
From Verif Require Import Base RootsModel UnionModel LabelsModel NodesModel NodesSpec NodesProofs NodesEdit NodesTop
  ChargeModel ChargeProofs CoordMerge GobjModel MarkModel MarkProofs.
Local Open Scope Z_scope.

(** ** Single features *)
Lemma fold_mark (f : lab -> nat -> lab) (A : nat -> list Z) (test : nat -> bool) :
  (forall st i, l_atoms st = A -> f st i = if test i then set_type st i Shell else st) ->
  forall l st, l_atoms st = A -> let st1 := fold_left f l st in
  l_g st1 = l_g st /\ l_atoms st1 = A /\ l_coord st1 = l_coord st /\
  forall i, l_type st1 i = if existsb (Nat.eqb i) l && test i then Shell else l_type st i.
Proof.
  intro F. induction l as [|x t IH]; intros st E; cbn [fold_left existsb]; [now repeat split|].
  rewrite (F st x E). assert (E1 : l_atoms (if test x then set_type st x Shell else st) = A) by (destruct (test x); exact E).
  destruct (IH _ E1) as (G & AT & C & T). split; [|split; [|split]].
  - rewrite G. now destruct (test x).
  - exact AT.
  - rewrite C. now destruct (test x).
  - intro i. rewrite T. destruct (Nat.eqb_spec i x) as [->|NE]; cbn [orb].
    + destruct (test x) eqn:Tx; cbn; [rewrite put_same; now destruct (existsb _ t)|now rewrite !andb_false_r].
    + destruct (existsb (Nat.eqb i) t && test i)%bool; [reflexivity|]. destruct (test x); [|reflexivity]. cbn. now rewrite put_other by congruence.
Qed.
Lemma existsb_nat i l : existsb (Nat.eqb i) l = true <-> In i l.
Proof. rewrite existsb_exists. split; [intros (x & H & E); apply Nat.eqb_eq in E; now subst|]. intro H. exists i. split; [exact H|apply Nat.eqb_refl]. Qed.

Lemma singles_spec w s st : let st1 := mark_single (mark_cores w s st) in
  l_g st1 = l_g st /\ l_atoms st1 = l_atoms st /\ l_coord st1 = l_coord st /\
  forall i, l_type st1 i = if existsb (Nat.eqb i) (unassigned_nodes st) && one_atom st i then Shell else l_type st i.
Proof.
  set (t1 := fun i => negb (w_cage w i) && one_atom st i && Qle_bool (qmin_list (w_dists w i)) (s_core_dist s)).
  destruct (fold_mark (mark_core w s) (l_atoms st) t1) with (l := unassigned_nodes st) (st := st) as (G1 & A1 & C1 & T1); [|reflexivity|].
  { intros st1 i E. unfold mark_core, t1, one_atom. rewrite E. destruct (w_cage w i); [reflexivity|]. cbn [negb andb].
    destruct (Nat.eqb _ 1); cbn [negb andb]; reflexivity. }
  fold (mark_cores w s st) in G1, A1, C1, T1. set (sta := mark_cores w s st) in *.
  destruct (fold_mark (fun st i => if one_atom st i then set_type st i Shell else st) (l_atoms st) (one_atom st)) with (l := unassigned_nodes sta) (st := sta)
    as (G2 & A2 & C2 & T2); [|exact A1|].
  { intros st1 i E. unfold one_atom. now rewrite E. }
  fold (mark_single sta) in G2, A2, C2, T2. cbv zeta. rewrite G2, A2, C2. split; [exact G1|]. split; [reflexivity|]. split; [exact C1|].
  intro i. rewrite T2, T1. unfold t1.
  assert (U : In i (unassigned_nodes sta) <-> In i (unassigned_nodes st) /\ t1 i = false).
  { rewrite !in_unassigned, G1, T1. destruct (existsb (Nat.eqb i) (unassigned_nodes st)) eqn:X; cbn [andb].
    - apply existsb_nat, in_unassigned in X as (X1 & X2 & X3). destruct (t1 i); intuition congruence.
    - split; [|tauto]. intros (H1 & H2 & H3). exfalso. assert (Y : existsb (Nat.eqb i) (unassigned_nodes st) = true); [|congruence].
      apply existsb_nat, in_unassigned. auto. }
  destruct (existsb (Nat.eqb i) (unassigned_nodes sta)) eqn:X2; destruct (existsb (Nat.eqb i) (unassigned_nodes st)) eqn:X1; cbn [andb].
  - apply existsb_nat, U in X2 as (_ & X2). unfold t1 in X2. rewrite X2. reflexivity.
  - apply existsb_nat, U in X2 as (X2 & _). apply existsb_nat in X2. congruence.
  - destruct (negb (w_cage w i) && one_atom st i && Qle_bool (qmin_list (w_dists w i)) (s_core_dist s))%bool eqn:T.
    + apply andb_prop in T as (T & _). apply andb_prop in T as (_ & ->). reflexivity.
    + exfalso. assert (Y : existsb (Nat.eqb i) (unassigned_nodes sta) = true); [|congruence].
      apply existsb_nat, U. split; [now apply existsb_nat|exact T].
  - reflexivity.
Qed.

(** ** The test of a domain *)
Definition top_value (g : graph) (i : nat) (m : Q) : Prop :=
  (0 <= m)%Q /\ (forall d, In d (g_nodes g) -> ancestor g i d -> (n_max (g_heap g d) <= m)%Q) /\
  (m = 0%Q \/ exists d, In d (g_nodes g) /\ ancestor g i d /\ m = n_max (g_heap g d)).
Definition depth_of (g : graph) (i : nat) : Q :=
  match n_depth (g_heap g i) with Some d => d | None => (n_max (g_heap g i) - n_min (g_heap g i))%Q end.
Definition lone_domain (g : graph) (atoms : nat -> list Z) (i : nat) : Prop :=
  In i (g_nodes g) /\ reducible g i /\ n_infinite (g_heap g i) = false /\ length (atoms i) = 1%nat /\
  forall c, In c (g_nodes g) -> parent_of g c = Some i -> length (atoms c) <> 1%nat.
Definition shell_domain (s : settings) (g : graph) (atoms : nat -> list Z) (i : nat) : Prop :=
  lone_domain g atoms i /\
  exists m, top_value g i m /\ (s_shell_ratio s < depth_of g i / (m - n_min (g_heap g i)))%Q.

Lemma top_unique g i a b : top_value g i a -> top_value g i b -> (a == b)%Q.
Proof.
  assert (H : forall a b, top_value g i a -> top_value g i b -> (a <= b)%Q).
  { intros x y (X1 & X2 & X3) (Y1 & Y2 & Y3). destruct X3 as [->|(d & Hd & A & ->)]; [exact Y1|now apply Y2]. }
  intros HA HB. apply Qle_antisym; auto.
Qed.
Lemma fold_top (g : graph) l : forall m0, (0 <= m0)%Q -> let m := fold_left (fun m c => if Qltb m (n_max (g_heap g c)) then n_max (g_heap g c) else m) l m0 in
  (m0 <= m)%Q /\ (forall d, In d l -> (n_max (g_heap g d) <= m)%Q) /\ (m = m0 \/ exists d, In d l /\ m = n_max (g_heap g d)).
Proof.
  induction l as [|x t IH]; intros m0 H0; cbn [fold_left].
  { split; [apply Qle_refl|]. split; [intros ? []|now left]. }
  destruct (Qltb m0 (n_max (g_heap g x))) eqn:L.
  - apply Qltb_lt in L. destruct (IH (n_max (g_heap g x))) as (A & B & C); [eapply Qle_trans; [exact H0|now apply Qlt_le_weak]|].
    split; [eapply Qle_trans; [apply Qlt_le_weak; exact L|exact A]|]. split.
    + intros d [<-|H]; [exact A|now apply B].
    + right. destruct C as [->|(d & Hd & ->)]; [exists x; split; [now left|reflexivity]|exists d; split; [now right|reflexivity]].
  - destruct (IH m0 H0) as (A & B & C). split; [exact A|]. split.
    + intros d [<-|H]; [|now apply B]. eapply Qle_trans; [|exact A]. apply Qnot_lt_le. intro X. apply Qltb_lt in X. congruence.
    + destruct C as [C|(d & Hd & C)]; [now left|]. right. exists d. split; [now right|exact C].
Qed.

Lemma ancestor_sim g g1 a x : sim g g1 -> ancestor g1 a x <-> ancestor g a x.
Proof.
  intros (_ & _ & _ & P & _). split; intro A; induction A as [x Q|x p Q A IH].
  - constructor. now rewrite <- P.
  - econstructor 2; [rewrite <- P; exact Q|exact IH].
  - constructor. now rewrite P.
  - econstructor 2; [rewrite P; exact Q|exact IH].
Qed.
Lemma static_inf g g1 i : same_static g g1 -> n_infinite (g_heap g1 i) = n_infinite (g_heap g i).
Proof. intro S. specialize (S i). unfold static in S. congruence. Qed.
Lemma static_minv g g1 i : same_static g g1 -> n_min (g_heap g1 i) = n_min (g_heap g i).
Proof. intro S. specialize (S i). unfold static in S. congruence. Qed.

Lemma lone_sim g g1 A i : sim g g1 -> lone_domain g1 A i <-> lone_domain g A i.
Proof.
  intros S. pose proof S as ((_ & N & _) & _ & ST & P & _ & _). unfold lone_domain, reducible.
  rewrite N, (static_red g g1 i ST), (static_inf g g1 i ST). setoid_rewrite P. reflexivity.
Qed.
Lemma shell_sim s g g1 A i : sim g g1 -> n_depth (g_heap g1 i) = n_depth (g_heap g i) -> shell_domain s g1 A i <-> shell_domain s g A i.
Proof.
  intros S D. pose proof S as ((_ & N & _) & _ & ST & P & _ & M). unfold shell_domain. rewrite (lone_sim g g1 A i S).
  assert (T : forall m, top_value g1 i m <-> top_value g i m).
  { intro m. unfold top_value. rewrite N. setoid_rewrite (ancestor_sim g g1 i _ S). setoid_rewrite M. reflexivity. }
  assert (DD : depth_of g1 i = depth_of g i) by (unfold depth_of; now rewrite D, M, (static_minv g g1 i ST)).
  setoid_rewrite T. rewrite DD, (static_minv g g1 i ST). reflexivity.
Qed.

Lemma get_depth_other g i j : i <> j -> g_heap (fst (get_depth g i)) j = g_heap g j.
Proof. intro NE. unfold get_depth. destruct (n_depth (g_heap g i)); [reflexivity|]. cbn. now rewrite hset_other. Qed.
Lemma get_depth_value g i : snd (get_depth g i) = depth_of g i.
Proof. unfold get_depth, depth_of. now destruct (n_depth (g_heap g i)). Qed.

Lemma lone_test g st i : well_formed g -> l_g st = g -> In i (g_nodes g) -> reducible g i ->
  negb (n_infinite (g_heap g i) || negb (one_atom st i)) && negb (existsb (one_atom st) (n_children (g_heap g i))) = true <->
  lone_domain g (l_atoms st) i.
Proof.
  intros W E Hi Ri. rewrite andb_true_iff, !negb_true_iff, orb_false_iff, negb_false_iff. unfold one_atom at 1. rewrite Nat.eqb_eq.
  unfold lone_domain. split.
  - intros ((F & O) & X). do 4 (split; [assumption|]). intros c Hc P L.
    assert (Y : existsb (one_atom st) (n_children (g_heap g i)) = true); [|congruence]. apply existsb_exists. exists c. split.
    + now apply (wf_children g W i c Hi).
    + now apply Nat.eqb_eq.
  - intros (_ & _ & F & O & X). split; [auto|]. destruct (existsb _ _) eqn:Y; [|reflexivity]. apply existsb_exists in Y as (c & Hc & Oc).
    exfalso. apply (wf_children g W i c Hi) in Hc as (Hc & P). apply (X c Hc P). now apply Nat.eqb_eq.
Qed.

Lemma shell_test_spec fuel s st i st1 b : well_formed (l_g st) -> In i (g_nodes (l_g st)) -> reducible (l_g st) i ->
  shell_test fuel s st i = Done (st1, b) ->
  sim (l_g st) (l_g st1) /\ (forall j, i <> j -> g_heap (l_g st1) j = g_heap (l_g st) j) /\
  l_type st1 = l_type st /\ l_atoms st1 = l_atoms st /\ l_coord st1 = l_coord st /\
  (b = true <-> shell_domain s (l_g st) (l_atoms st) i).
Proof.
  intros W Hi Ri E. unfold shell_test in E. pose proof (lone_test (l_g st) st i W eq_refl Hi Ri) as LT.
  destruct (n_infinite (g_heap (l_g st) i) || negb (one_atom st i))%bool.
  { injection E as <- <-. split; [apply sim_refl|]. do 4 (split; [reflexivity|]). split; [discriminate|]. intros (L & _). apply LT in L. discriminate. }
  destruct (existsb (one_atom st) (n_children (g_heap (l_g st) i))).
  { injection E as <- <-. split; [apply sim_refl|]. do 4 (split; [reflexivity|]). split; [discriminate|]. intros (L & _). apply LT in L. discriminate. }
  pose proof (get_depth_sim (l_g st) i) as S. pose proof (get_depth_other (l_g st) i) as O. pose proof (get_depth_value (l_g st) i) as V.
  destruct (get_depth (l_g st) i) as [g1 depth]. cbn [fst snd] in *.
  destruct (deep_children fuel g1 i) as [deep| |] eqn:D; cbn [obind] in E; try discriminate.
  pose proof (sim_wf _ _ S W) as W1. pose proof S as ((_ & N & _) & _ & ST & P & _ & M).
  destruct (deep_children_any g1 i fuel deep W1 ltac:(now rewrite N) D) as (_ & DI & _).
  destruct (fold_top g1 deep 0%Q (Qle_refl 0)) as (T1 & T2 & T3). cbv zeta in E, T1, T2, T3.
  set (m := fold_left _ deep 0%Q) in *.
  destruct (Qeq_bool (m - n_min (g_heap g1 i)) 0) eqn:Z0; [discriminate|]. injection E as <- <-. cbn.
  split; [exact S|]. split; [exact O|]. do 3 (split; [reflexivity|]).
  assert (TV : top_value (l_g st) i m).
  { split; [exact T1|]. split.
    - intros d Hd A. rewrite <- M. apply T2, DI. rewrite N. split; [exact Hd|]. now apply (ancestor_sim (l_g st) g1).
    - destruct T3 as [->|(d & Hd & ->)]; [now left|right]. apply DI in Hd as (Hd & A). rewrite N in Hd. exists d. split; [exact Hd|].
      split; [now apply (ancestor_sim (l_g st) g1)|]. apply M. }
  rewrite Qltb_lt, V, (static_minv (l_g st) g1 i ST). split.
  - intro Q. split; [now apply LT|]. now exists m.
  - intros (_ & m1 & TV1 & Q). now rewrite (top_unique _ _ _ _ TV TV1).
Qed.

Lemma shell_tests_spec fuel s : forall l st st2 r, well_formed (l_g st) -> NoDup l ->
  (forall i, In i l -> In i (g_nodes (l_g st)) /\ reducible (l_g st) i) ->
  shell_tests fuel s st l = Done (st2, r) ->
  sim (l_g st) (l_g st2) /\ l_type st2 = l_type st /\ l_atoms st2 = l_atoms st /\ l_coord st2 = l_coord st /\ NoDup r /\
  forall i, In i r <-> In i l /\ shell_domain s (l_g st) (l_atoms st) i.
Proof.
  induction l as [|i t IH]; intros st st2 r W N H E; cbn [shell_tests] in E.
  { injection E as <- <-. split; [apply sim_refl|]. do 3 (split; [reflexivity|]). split; [constructor|]. cbn. tauto. }
  destruct (shell_test fuel s st i) as [[st1 b]| |] eqn:E1; cbn [obind] in E; try discriminate.
  destruct (shell_tests fuel s st1 t) as [[st3 r3]| |] eqn:E2; cbn [obind] in E; try discriminate. injection E as <- <-.
  inversion N as [|x y Ni N']; subst. destruct (H i (or_introl eq_refl)) as (Hi & Ri).
  destruct (shell_test_spec fuel s st i st1 b W Hi Ri E1) as (S & O & T & A & C & B).
  pose proof S as ((_ & NN & _) & _ & ST & _).
  destruct (IH st1 st3 r3 (sim_wf _ _ S W) N') as (S3 & T3 & A3 & C3 & N3 & I3).
  { intros j Hj. destruct (H j (or_intror Hj)) as (Hj1 & Hj2). rewrite NN. split; [exact Hj1|]. unfold reducible. now rewrite (static_red (l_g st) _ j ST). }
  { exact E2. }
  split; [eapply sim_trans; eauto|]. split; [congruence|]. split; [congruence|]. split; [congruence|].
  assert (I3' : forall j, In j r3 <-> In j t /\ shell_domain s (l_g st) (l_atoms st) j).
  { intro j. rewrite I3, A. split; intros (X & Y); (split; [exact X|]); (assert (NE : i <> j) by (intros ->; contradiction));
      apply (shell_sim s (l_g st) (l_g st1) (l_atoms st) j S); auto; now rewrite O. }
  split.
  - destruct b; [|exact N3]. constructor; [|exact N3]. intro X. apply I3' in X. tauto.
  - intro j. destruct b; cbn [In]; rewrite I3'.
    + split; [intros [<-|(X & Y)]; [split; [now left|now apply B]|auto]|]. intros ([->|X] & Y); auto.
    + split; [intros (X & Y); auto|]. intros ([->|X] & Y); [|auto]. apply B in Y. discriminate.
Qed.

(** ** Collapsing domains *)
(** The nodes a collapse of the domains [l] leaves alone. *)
Definition kept_node (g : graph) (l : list nat) (j : nat) : Prop :=
  In j (g_nodes g) /\ forall i, In i l -> j <> i /\ ~ ancestor g i j.
Definition replaces (g : graph) (st : lab) (g' : graph) (st' : lab) (i j : nat) : Prop :=
  (g_next g <= j)%nat /\ In j (g_nodes g') /\ ~ reducible g' j /\ key_of g' j = key_of g i /\ basins_of g' j = basins_of g i /\
  parent_of g' j = parent_of g i /\ n_min (g_heap g' j) = n_min (g_heap g i) /\
  l_atoms st' j = l_atoms st i /\ l_type st' j = Shell /\ l_coord st' j = None.
Definition keeps (g : graph) (st : lab) (g' : graph) (st' : lab) (j : nat) : Prop :=
  In j (g_nodes g') /\ static (g_heap g' j) = static (g_heap g j) /\ parent_of g' j = parent_of g j /\
  l_atoms st' j = l_atoms st j /\ l_type st' j = l_type st j /\ l_coord st' j = l_coord st j.

Lemma static_key g g1 j : static (g_heap g1 j) = static (g_heap g j) -> key_of g1 j = key_of g j /\ (reducible g1 j <-> reducible g j) /\
  basins_of g1 j = basins_of g j /\ n_min (g_heap g1 j) = n_min (g_heap g j) /\ n_infinite (g_heap g1 j) = n_infinite (g_heap g j).
Proof. unfold static, key_of, reducible, basins_of. intro E. injection E as -> -> -> -> ->. repeat split; auto. Qed.

Lemma collapsed_ancestor g g1 i n a x : well_formed g -> well_formed g1 -> collapsed g g1 i n -> In x (g_nodes g1) -> x <> n ->
  ancestor g1 a x <-> ancestor g a x.
Proof.
  intros W W1 C Hx NE.
  assert (P : forall y p, In y (g_nodes g1) -> y <> n -> parent_of g1 y = Some p -> parent_of g y = Some p /\ In p (g_nodes g1) /\ p <> n).
  { intros y p Hy NY E. destruct (wf_parent g1 W1 y p Hy E) as (Hp & Rp & _). destruct (c_keep _ _ _ _ C y Hy NY) as (_ & EP).
    split; [congruence|]. split; [exact Hp|]. intros ->. now apply (c_leaf _ _ _ _ C). }
  split; intro A.
  - induction A as [y E|y p E A IH].
    + constructor. now apply P.
    + destruct (P y p Hx NE E) as (E' & Hp & Np). econstructor 2; [exact E'|now apply IH].
  - induction A as [y E|y p E A IH]; destruct (c_keep _ _ _ _ C y Hx NE) as (_ & EP).
    + constructor. congruence.
    + assert (E1 : parent_of g1 y = Some p) by congruence. destruct (P y p Hx NE E1) as (_ & Hp & Np).
      econstructor 2; [exact E1|now apply IH].
Qed.

Lemma combine_shells_spec fuel s : s_combine s = true -> forall l st st', well_formed (l_g st) -> NoDup l ->
  (forall i, In i l -> In i (g_nodes (l_g st)) /\ reducible (l_g st) i) ->
  (forall i j, In i l -> In j l -> ~ ancestor (l_g st) i j) ->
  combine_shells fuel s st l = Done st' ->
  well_formed (l_g st') /\ (forall b, leaf_basin (l_g st) b -> leaf_basin (l_g st') b) /\
  (forall j, kept_node (l_g st) l j -> keeps (l_g st) st (l_g st') st' j) /\
  (forall i, In i l -> exists j, replaces (l_g st) st (l_g st') st' i j) /\
  (forall j, In j (g_nodes (l_g st')) -> kept_node (l_g st) l j \/ exists i, In i l /\ replaces (l_g st) st (l_g st') st' i j).
Proof.
  intro SC. induction l as [|i t IH]; intros st st' W N H U E; cbn [combine_shells] in E.
  { injection E as <-. split; [exact W|]. split; [auto|]. split; [intros j (Hj & _); now repeat split|].
    split; [intros ? []|]. intros j Hj. left. split; [exact Hj|]. intros ? []. }
  unfold combine_shell in E. rewrite SC in E. inversion N as [|x y Ni N']; subst. destruct (H i (or_introl eq_refl)) as (Hi & Ri).
  assert (DC : exists deep, deep_children fuel (l_g st) i = Done deep).
  { unfold make_irreducible in E. unfold reducible in Ri. rewrite Ri in E. cbn [negb] in E.
    destruct (deep_children fuel (l_g st) i) as [d| |]; [now exists d|discriminate|discriminate]. }
  destruct DC as (deep & DC). destruct (make_irreducible_ok fuel (l_g st) i deep W Hi Ri DC) as (g1 & n & EM & W1 & C & _ & _ & SS & En).
  rewrite EM in E. cbn [obind] in E. set (st1 := Lab _ _ _ _ _ _) in E.
  assert (G1 : l_g st1 = g1) by reflexivity.
  assert (Hold : forall j, In j (g_nodes (l_g st)) -> n <> j).
  { intros j Hj ->. now apply (c_new _ _ _ _ C). }
  assert (Kt : forall j, In j t -> In j (g_nodes g1) /\ j <> n).
  { intros j Hj. destruct (H j (or_intror Hj)) as (Hj1 & _). split; [|now apply not_eq_sym, Hold]. apply (c_nodes _ _ _ _ C). left. split; [exact Hj1|]. split.
    - intros ->. contradiction.
    - apply U; [now left|now right]. }
  destruct (IH st1 st') as (W' & L' & K' & R' & A').
  { exact W1. } { exact N'. }
  { intros j Hj. destruct (Kt j Hj) as (K1 & K2). split; [exact K1|]. rewrite G1. destruct (c_keep _ _ _ _ C j K1 K2) as (ST & _).
    apply (static_key _ _ _ ST). now apply H; right. }
  { intros a b Ha Hb. rewrite G1. destruct (Kt b Hb) as (K1 & K2). rewrite (collapsed_ancestor _ _ _ _ a b W W1 C K1 K2). apply U; now right. }
  { exact E. }
  rewrite G1 in L', K', R', A'.
  (* kept nodes of the first step *)
  assert (KK : forall j, In j (g_nodes g1) -> j <> n -> static (g_heap g1 j) = static (g_heap (l_g st) j) /\ parent_of g1 j = parent_of (l_g st) j /\
     l_atoms st1 j = l_atoms st j /\ l_type st1 j = l_type st j /\ l_coord st1 j = l_coord st j).
  { intros j Hj NJ. destruct (c_keep _ _ _ _ C j Hj NJ) as (ST & P). split; [exact ST|]. split; [exact P|].
    unfold st1. cbn. rewrite !put_other by congruence. auto. }
  assert (KI : forall j, kept_node g1 t j <-> kept_node (l_g st) (i :: t) j \/ j = n).
  { intro j. unfold kept_node. rewrite (c_nodes _ _ _ _ C j). split.
    - intros ([(Hj & NJ & AJ)| ->] & X); [left|now right]. assert (Hj1 : In j (g_nodes g1)) by (apply (c_nodes _ _ _ _ C); auto).
      split; [exact Hj|]. intros x [<-|Hx]; [auto|]. destruct (X x Hx) as (X1 & X2). split; [exact X1|].
      rewrite (collapsed_ancestor _ _ _ _ x j W W1 C Hj1 (not_eq_sym (Hold j Hj))) in X2. exact X2.
    - intros [(Hj & X)| ->].
      + destruct (X i (or_introl eq_refl)) as (X1 & X2). assert (Hj1 : In j (g_nodes g1)) by (apply (c_nodes _ _ _ _ C); auto).
        split; [auto|]. intros x Hx. destruct (X x (or_intror Hx)) as (Y1 & Y2). split; [exact Y1|].
        now rewrite (collapsed_ancestor _ _ _ _ x j W W1 C Hj1 (not_eq_sym (Hold j Hj))).
      + split; [now right|]. intros x Hx. destruct (Kt x Hx) as (K1 & K2). split; [congruence|]. intro A.
        (* ancestors of [n] are those of [i] *)
        assert (AI : ancestor (l_g st) x i).
        { assert (Hn : In n (g_nodes g1)) by (apply (c_nodes _ _ _ _ C); now right).
          assert (PA : parent_of g1 n = Some x \/ exists p, parent_of g1 n = Some p /\ ancestor g1 x p) by (destruct A; eauto).
          rewrite (c_parent _ _ _ _ C) in PA. destruct PA as [P|(p & P & A1)].
          - now constructor.
          - econstructor 2; [exact P|]. destruct (wf_parent (l_g st) W i p Hi P) as (Hp & _).
            assert (Hp1 : In p (g_nodes g1)).
            { apply (wf_parent g1 W1 n p Hn). now rewrite (c_parent _ _ _ _ C). }
            apply (collapsed_ancestor _ _ _ _ x p W W1 C Hp1 (not_eq_sym (Hold p Hp))). exact A1. }
        revert AI. apply U; [now right|now left]. }
  (* replacements of the second step, seen from the start *)
  assert (RR : forall a j, In a t -> replaces g1 st1 (l_g st') st' a j -> replaces (l_g st) st (l_g st') st' a j).
  { intros a j Ha (R1 & R2 & R3 & R4 & R5 & R6 & R7 & R8 & R9 & R10). destruct (Kt a Ha) as (K1 & K2).
    destruct (KK a K1 K2) as (S1 & P1 & A1 & _). destruct (static_key _ _ _ S1) as (S2 & _ & S3 & S4 & _). unfold replaces. rewrite R4, R5, R6, R7, R8.
    split.
    { pose proof (wf_live g1 W1 n (proj2 (c_nodes _ _ _ _ C n) (or_intror eq_refl))). lia. }
    do 8 (split; [first [assumption|congruence]|]). assumption. }
  split; [exact W'|]. split; [intros b Hb; apply L'; now apply (leaf_collapsed (l_g st) g1 i n)|]. split; [|split].
  - intros j HK. destruct (K' j (proj2 (KI j) (or_introl HK))) as (Q1 & Q2 & Q3 & Q4 & Q5 & Q6).
    assert (Hj1 : In j (g_nodes g1)) by apply (proj2 (KI j) (or_introl HK)). assert (NJ : j <> n) by (apply not_eq_sym, Hold, HK).
    destruct (KK j Hj1 NJ) as (S1 & P1 & A1 & T1 & C1). unfold keeps. split; [exact Q1|]. repeat split; congruence.
  - assert (RI : replaces (l_g st) st (l_g st') st' i n).
    { destruct (K' n (proj2 (KI n) (or_intror eq_refl))) as (Q1 & Q2 & Q3 & Q4 & Q5 & Q6). destruct (static_key _ _ _ Q2) as (S1 & S2 & S3 & S4 & _).
      unfold replaces. rewrite S1, S2, S3, S4, Q3, Q4, Q5, Q6. unfold st1. cbn. rewrite !put_same. split; [lia|]. split; [exact Q1|].
      split; [apply (c_leaf _ _ _ _ C)|]. split; [apply (c_key _ _ _ _ C)|]. split; [apply (c_basins _ _ _ _ C)|].
      split; [apply (c_parent _ _ _ _ C)|]. split; [apply (c_min _ _ _ _ C)|]. auto. }
    intros a [<-|Ha]; [now exists n|]. destruct (R' a Ha) as (j & R). exists j. now apply RR.
  - intros j Hj. destruct (A' j Hj) as [X|(a & Ha & R)].
    + apply KI in X as [X| ->]; [now left|]. right. exists i. split; [now left|].
      destruct (K' n (proj2 (KI n) (or_intror eq_refl))) as (Q1 & Q2 & Q3 & Q4 & Q5 & Q6). destruct (static_key _ _ _ Q2) as (S1 & S2 & S3 & S4 & _).
      unfold replaces. rewrite S1, S2, S3, S4, Q3, Q4, Q5, Q6. unfold st1. cbn. rewrite !put_same. split; [lia|]. split; [exact Q1|].
      split; [apply (c_leaf _ _ _ _ C)|]. split; [apply (c_key _ _ _ _ C)|]. split; [apply (c_basins _ _ _ _ C)|].
      split; [apply (c_parent _ _ _ _ C)|]. split; [apply (c_min _ _ _ _ C)|]. auto.
    + right. exists a. split; [now right|]. now apply RR.
Qed.

Definition shrinking (g : graph) (atoms : nat -> list Z) : Prop :=
  forall c p, In c (g_nodes g) -> parent_of g c = Some p -> (length (atoms c) <= length (atoms p))%nat.
Lemma shrinking_far g atoms a x : well_formed g -> shrinking g atoms -> In x (g_nodes g) -> ancestor g a x -> (length (atoms x) <= length (atoms a))%nat.
Proof.
  intros W S Hx A. induction A as [x P|x p P A IH]; [now apply S|]. destruct (wf_parent g W x p Hx P) as (Hp & _).
  specialize (IH Hp). specialize (S x p Hx P). lia.
Qed.
Lemma lone_apart g atoms i j : well_formed g -> shrinking g atoms -> lone_domain g atoms i -> lone_domain g atoms j -> ~ ancestor g i j.
Proof.
  intros W S (Hi & _ & _ & Oi & Ci) (Hj & _ & _ & Oj & _) A. destruct (ancestor_first g i j A) as [P|(c & P & Ac)].
  - now apply (Ci j Hj P).
  - pose proof (ancestor_in g c j W Hj Ac) as Hc. specialize (Ci c Hc P). specialize (S c i Hc P) as S1.
    pose proof (shrinking_far g atoms c j W S Hj Ac). lia.
Qed.

Lemma mark_shells_spec fuel w s st st' : s_combine s = true -> well_formed (l_g st) -> shrinking (l_g st) (l_atoms st) ->
  (forall i, In i (g_nodes (l_g st)) -> ~ reducible (l_g st) i -> l_type st i = Unknown) ->
  mark_shells fuel s (mark_cores w s st) = Done st' ->
  let g := l_g st in let g' := l_g st' in
  let dom := shell_domain s g (l_atoms st) in
  let kept j := In j (g_nodes g) /\ forall i, dom i -> j <> i /\ ~ ancestor g i j in
  let new i j := (g_next g <= j)%nat /\ ~ reducible g' j /\ key_of g' j = key_of g i /\ basins_of g' j = basins_of g i /\
    parent_of g' j = parent_of g i /\ n_min (g_heap g' j) = n_min (g_heap g i) /\ l_atoms st' j = l_atoms st i in
  well_formed g' /\ (forall b, leaf_basin g b -> leaf_basin g' b) /\
  (forall j, In j (g_nodes g') <-> kept j \/ In j (g_nodes g') /\ exists i, dom i /\ new i j) /\
  (forall i, dom i -> exists j, In j (g_nodes g') /\ new i j) /\
  (forall j, kept j -> static (g_heap g' j) = static (g_heap g j) /\ parent_of g' j = parent_of g j /\ l_atoms st' j = l_atoms st j) /\
  (forall j, In j (g_nodes g') -> ~ reducible g' j ->
     (length (l_atoms st' j) = 1%nat -> l_type st' j = Shell) /\ (length (l_atoms st' j) <> 1%nat -> l_type st' j = Unknown)).
Proof.
  intros SC W SH TU E. unfold mark_shells in E. destruct (singles_spec w s st) as (G1 & A1 & C1 & T1).
  set (st1 := mark_single (mark_cores w s st)) in *.
  destruct (shell_tests fuel s st1 (reducible_nodes st1)) as [[st2 r]| |] eqn:E2; cbn [obind] in E; try discriminate.
  destruct (shell_tests_spec fuel s (reducible_nodes st1) st1 st2 r) as (S & T2 & A2 & C2 & N2 & I2); auto.
  { now rewrite G1. } { unfold reducible_nodes. apply NoDup_filter. rewrite G1. apply (wf_nodup _ W). }
  { intros i. apply in_reducible. }
  pose proof S as ((NX & NN & _) & _ & ST & P & _ & M). rewrite G1 in S, NX, NN, ST, P, M, I2. rewrite A1 in A2, I2.
  assert (I2' : forall i, In i r <-> shell_domain s (l_g st) (l_atoms st) i).
  { intro i. rewrite I2, in_reducible, G1. split; [tauto|]. intro D. split; [|exact D]. destruct D as ((D1 & D2 & _) & _). auto. }
  assert (SK : forall j, static (g_heap (l_g st2) j) = static (g_heap (l_g st) j)) by exact ST.
  destruct (combine_shells_spec fuel s SC r st2 st') as (W' & L' & K' & R' & X'); auto.
  { now apply (sim_wf _ _ S). }
  { intros i Hi. apply I2' in Hi as ((D1 & D2 & _) & _). rewrite NN. split; [exact D1|]. now apply (static_key _ _ i (SK i)). }
  { intros i j Hi Hj A. apply I2' in Hi as (Hi & _). apply I2' in Hj as (Hj & _). apply (ancestor_sim _ _ i j S) in A.
    now apply (lone_apart _ _ i j W SH Hi Hj). }
  cbv zeta.
  assert (KE : forall j, kept_node (l_g st2) r j <-> In j (g_nodes (l_g st)) /\ forall i, shell_domain s (l_g st) (l_atoms st) i -> j <> i /\ ~ ancestor (l_g st) i j).
  { intro j. unfold kept_node. rewrite NN. setoid_rewrite I2'. setoid_rewrite (ancestor_sim (l_g st) (l_g st2) _ j S). reflexivity. }
  assert (RE : forall i j, replaces (l_g st2) st2 (l_g st') st' i j -> (g_next (l_g st) <= j)%nat /\ ~ reducible (l_g st') j /\ key_of (l_g st') j = key_of (l_g st) i /\
     basins_of (l_g st') j = basins_of (l_g st) i /\ parent_of (l_g st') j = parent_of (l_g st) i /\
     n_min (g_heap (l_g st') j) = n_min (g_heap (l_g st) i) /\ l_atoms st' j = l_atoms st i).
  { intros i j (Q1 & Q2 & Q3 & Q4 & Q5 & Q6 & Q7 & Q8 & _). destruct (static_key _ _ i (SK i)) as (S1 & _ & S3 & S4 & _).
    rewrite NX in Q1. rewrite S1 in Q4. rewrite S3 in Q5. rewrite P in Q6. rewrite S4 in Q7. rewrite A2 in Q8. auto 8. }
  split; [exact W'|]. split; [intros b Hb; apply L'; now apply (sim_leaf _ _ b S)|]. split; [|split; [|split]].
  - intro j. split.
    + intro Hj. destruct (X' j Hj) as [X|(i & Hi & X)]; [left; now apply KE|right]. split; [exact Hj|]. exists i. split; [now apply I2'|now apply RE].
    + intros [X|(X & _)]; [|exact X]. apply KE in X. now destruct (K' j X).
  - intros i D. destruct (R' i (proj2 (I2' i) D)) as (j & R). exists j. split; [apply R|now apply RE].
  - intros j X. apply KE in X. destruct (K' j X) as (_ & Q2 & Q3 & Q4 & _). rewrite Q2, Q3, Q4, SK, P, A2. auto.
  - intros j Hj Rj. destruct (X' j Hj) as [X|(i & Hi & X)].
    + destruct (K' j X) as (_ & Q2 & Q3 & Q4 & Q5 & _). rewrite Q4, Q5, T2, T1, A2. apply KE in X as (Hj0 & _).
      assert (Rj0 : ~ reducible (l_g st) j).
      { intro R. apply Rj. apply (static_key _ _ _ Q2). now apply (static_key _ _ j (SK j)). }
      assert (U : existsb (Nat.eqb j) (unassigned_nodes st) = true) by (apply existsb_nat, in_unassigned; auto).
      rewrite U. cbn [andb]. unfold one_atom. destruct (Nat.eqb_spec (length (l_atoms st j)) 1) as [O|O]; split; intro X; try contradiction; auto.
    + destruct X as (_ & _ & _ & _ & _ & _ & _ & Q8 & Q9 & _). rewrite Q8, Q9, A2. apply I2' in Hi as ((_ & _ & _ & O & _) & _). split; [auto|]. intro Y. now destruct Y.
Qed.

(** No division by zero. *)
Lemma mark_shells_done fuel w s st : s_combine s = true -> well_formed (l_g st) -> shrinking (l_g st) (l_atoms st) ->
  (length (g_nodes (l_g st)) <= fuel)%nat ->
  (forall i, lone_domain (l_g st) (l_atoms st) i -> (n_min (g_heap (l_g st) i) < 0)%Q \/
     exists d, In d (g_nodes (l_g st)) /\ ancestor (l_g st) i d /\ (n_min (g_heap (l_g st) i) < n_max (g_heap (l_g st) d))%Q) ->
  exists st', mark_shells fuel s (mark_cores w s st) = Done st'.
Proof.
  intros SC W SH FU Z. unfold mark_shells. destruct (singles_spec w s st) as (G1 & A1 & C1 & T1).
  set (st1 := mark_single (mark_cores w s st)) in *. rewrite <- G1 in W, FU, SH, Z. rewrite <- A1 in SH, Z.
  assert (X1 : forall l stx, sim (l_g st1) (l_g stx) -> l_atoms stx = l_atoms st1 -> (forall i, In i l -> In i (g_nodes (l_g st1)) /\ reducible (l_g st1) i) ->
     exists r, shell_tests fuel s stx l = Done r).
  { induction l as [|i t IH]; intros stx S A H; [eexists; reflexivity|]. cbn [shell_tests]. destruct (H i (or_introl eq_refl)) as (Hi & Ri).
    pose proof S as ((_ & NN & _) & _ & ST & P & _ & M). pose proof (sim_wf _ _ S W) as Wx.
    assert (D : exists r, shell_test fuel s stx i = Done r).
    { unfold shell_test. pose proof (lone_test (l_g stx) stx i Wx eq_refl ltac:(now rewrite NN) ltac:(unfold reducible; now rewrite (static_red (l_g st1) _ i ST))) as LT.
      destruct (_ || _)%bool; [eexists; reflexivity|]. destruct (existsb _ _); [eexists; reflexivity|]. cbn [negb andb] in LT.
      pose proof (proj1 LT eq_refl) as L. rewrite A, (lone_sim _ _ _ _ S) in L.
      pose proof (get_depth_sim (l_g stx) i) as SD. destruct (get_depth (l_g stx) i) as [g1 depth]. cbn [fst] in SD.
      pose proof (sim_trans _ _ _ S SD) as S2. pose proof (sim_wf _ _ S2 W) as W2. pose proof S2 as ((_ & NN2 & _) & _ & ST2 & P2 & _ & M2).
      destruct (deep_children_spec g1 i fuel W2 ltac:(now rewrite NN2) ltac:(now rewrite NN2)) as (deep & -> & _ & DI & _). cbn [obind].
      destruct (fold_top g1 deep 0%Q (Qle_refl 0)) as (T2 & T3 & _). cbv zeta in T2, T3 |- *. set (m := fold_left _ deep 0%Q) in *.
      destruct (Qeq_bool (m - n_min (g_heap g1 i)) 0) eqn:Z0; [exfalso|eexists; reflexivity].
      apply Qeq_bool_iff in Z0. rewrite (static_minv _ _ i ST2) in Z0.
      assert (LM : (n_min (g_heap (l_g st1) i) < m)%Q).
      { destruct (Z i L) as [Y|(d & Hd & Ad & Y)]; [eapply Qlt_le_trans; eauto|]. eapply Qlt_le_trans; [exact Y|].
        rewrite <- M2. apply T3, DI. rewrite NN2. split; [exact Hd|]. now apply (ancestor_sim _ _ i d S2). }
      apply Qlt_minus_iff in LM. unfold Qminus in Z0. rewrite Z0 in LM. now apply Qlt_irrefl in LM. }
    destruct D as ([sty b] & D). rewrite D. cbn [obind].
    destruct (shell_test_spec fuel s stx i sty b Wx ltac:(now rewrite NN) ltac:(unfold reducible; now rewrite (static_red (l_g st1) _ i ST)) D) as (S' & _ & _ & A' & _).
    destruct (IH sty (sim_trans _ _ _ S S') ltac:(congruence) (fun x Hx => H x (or_intror Hx))) as ((sz & rz) & ->). cbn [obind]. eexists; reflexivity. }
  destruct (X1 (reducible_nodes st1) st1 (sim_refl _) eq_refl ltac:(intro; apply in_reducible)) as ((st2 & r) & E2). rewrite E2. cbn [obind].
  destruct (shell_tests_spec fuel s (reducible_nodes st1) st1 st2 r) as (S & T2 & A2 & C2 & N2 & I2); auto.
  { unfold reducible_nodes. apply NoDup_filter. apply (wf_nodup _ W). } { intros i. apply in_reducible. }
  pose proof S as ((_ & NN & _) & _ & ST & P & _ & M).
  assert (X2 : forall l stx, well_formed (l_g stx) -> (length (g_nodes (l_g stx)) <= fuel)%nat -> NoDup l ->
     (forall i, In i l -> In i (g_nodes (l_g stx)) /\ reducible (l_g stx) i) -> (forall i j, In i l -> In j l -> ~ ancestor (l_g stx) i j) ->
     exists st', combine_shells fuel s stx l = Done st').
  { induction l as [|i t IH]; intros stx Wx Fx N H U; [eexists; reflexivity|]. cbn [combine_shells]. unfold combine_shell. rewrite SC.
    inversion N as [|x y Ni N']; subst. destruct (H i (or_introl eq_refl)) as (Hi & Ri).
    destruct (make_irreducible_total fuel (l_g stx) i Wx Hi Fx) as (deep & DC).
    destruct (make_irreducible_ok fuel (l_g stx) i deep Wx Hi Ri DC) as (g1 & n & EM & W1 & C & _). rewrite EM. cbn [obind].
    assert (Kt : forall j, In j t -> In j (g_nodes g1) /\ j <> n).
    { intros j Hj. destruct (H j (or_intror Hj)) as (Hj1 & _). split; [|intros ->; now apply (c_new _ _ _ _ C)]. apply (c_nodes _ _ _ _ C). left.
      split; [exact Hj1|]. split; [intros ->; contradiction|]. apply U; [now left|now right]. }
    apply IH; cbn [l_g]; auto.
    - (* the number of nodes does not grow *)
      eapply Nat.le_trans; [|exact Fx].
      apply (Nat.le_trans _ (length (map (fun j => if Nat.eqb j n then i else j) (g_nodes g1)))); [now rewrite map_length|].
      apply NoDup_incl_length.
      + assert (NI : NoDup (g_nodes g1)) by apply (wf_nodup _ W1). 
        assert (QQ : forall l, NoDup l -> (forall j, In j l -> In j (g_nodes g1)) -> NoDup (map (fun j => if Nat.eqb j n then i else j) l)); [|now apply QQ].
        induction l as [|z l IHl]; intros Nl Hl; cbn [map]; [constructor|]. inversion Nl as [|? ? Nz Nl']; subst. constructor; [|apply IHl; auto; intros; apply Hl; now right].
        intro Y. apply in_map_iff in Y as (j & Ej & Hj). 
        assert (Ii : forall k, In k (g_nodes g1) -> k <> n -> k <> i).
        { intros k Hk Nk. apply (c_nodes _ _ _ _ C) in Hk as [(_ & Hk & _)|Hk]; [exact Hk|contradiction]. }
        pose proof (Hl z (or_introl eq_refl)) as Hz. pose proof (Hl j (or_intror Hj)) as Hj'.
        destruct (Nat.eqb_spec j n) as [Ejn|Njn], (Nat.eqb_spec z n) as [Ezn|Nzn].
        * apply Nz. now rewrite Ezn, <- Ejn.
        * now apply (Ii z Hz Nzn).
        * now apply (Ii j Hj' Njn).
        * apply Nz. now rewrite <- Ej.
      + intros x Hx. apply in_map_iff in Hx as (j & <- & Hj). destruct (Nat.eqb_spec j n); [exact Hi|]. apply (c_nodes _ _ _ _ C) in Hj as [(Hj & _)|Hj]; [exact Hj|contradiction].
    - intros j Hj. destruct (Kt j Hj) as (K1 & K2). split; [exact K1|]. destruct (c_keep _ _ _ _ C j K1 K2) as (SS & _). apply (static_key _ _ _ SS). apply H. now right.
    - intros a b Ha Hb. destruct (Kt b Hb) as (K1 & K2). rewrite (collapsed_ancestor _ _ _ _ a b Wx W1 C K1 K2). apply U; now right. }
  apply X2; auto.
  - now apply (sim_wf _ _ S).
  - now rewrite NN.
  - intros i Hi. apply I2 in Hi as (Hi & _). apply in_reducible in Hi as (Hi & Ri). rewrite NN. split; [exact Hi|]. unfold reducible. now rewrite (static_red (l_g st1) _ i ST).
  - intros i j Hi Hj A. apply I2 in Hi as (_ & Hi & _). apply I2 in Hj as (_ & Hj & _). apply (ancestor_sim _ _ i j S) in A. now apply (lone_apart _ _ i j W SH Hi Hj).
Qed.
