(** The labels of ELF features: statements. *)
From Coq Require Import QArith Permutation Sorted.
From Verif Require Import Base RootsModel RootsProofs UnionModel LabelsModel NodesModel NodesSpec NodesProofs NodesEdit NodesTop NodesProps
  ChargeModel ChargeProofs PlaneModel GobjModel GobjProps CoordMerge CoordProps MarkModel MarkProofs MarkLone MarkShell MarkKinds.
Local Open Scope Z_scope.

Definition irreducible (g : graph) (c : nat) : Prop := In c (g_nodes g) /\ ~ reducible g c.
Definition leaf_below (g : graph) (d c : nat) : Prop := irreducible g c /\ ancestor g d c.
(** A finite domain around exactly one atom. *)
Definition atom_domain (st : lab) (d : nat) : Prop := length (l_atoms st d) = 1%nat /\ n_infinite (g_heap (l_g st) d) = false.
Definition enough_charge (w : world) (s : settings) (st : lab) (c : nat) : Prop := (s_min_charge s < charge w (l_g st) c)%Q.
(** At most one neighbour of [c] lies in the domain [d]. *)
Definition one_neighbour (w : world) (st : lab) (d c : nat) : Prop :=
  (length (filter (fun a => existsb (Z.eqb a) (l_atoms st d)) (neighbours w st c)) <= 1)%nat.

(** ** C148: shells *)
Theorem C148_shells : forall fuel w s st st', s_combine s = true -> well_formed (l_g st) -> shrinking (l_g st) (l_atoms st) ->
  (forall i, irreducible (l_g st) i -> l_type st i = Unknown) ->
  mark_shells fuel s (mark_cores w s st) = Done st' ->
  let g := l_g st in let g' := l_g st' in
  let dom := shell_domain s g (l_atoms st) in
  let kept j := In j (g_nodes g) /\ forall i, dom i -> j <> i /\ ~ ancestor g i j in
  let new i j := (g_next g <= j)%nat /\ ~ reducible g' j /\ key_of g' j = key_of g i /\ basins_of g' j = basins_of g i /\
    parent_of g' j = parent_of g i /\ n_min (g_heap g' j) = n_min (g_heap g i) /\ l_atoms st' j = l_atoms st i in
  well_formed g' /\ (forall b, leaf_basin g b -> leaf_basin g' b) /\
  (forall j, In j (g_nodes g') <-> kept j \/ In j (g_nodes g') /\ exists i, dom i /\ new i j) /\
  (forall i, dom i -> exists j, In j (g_nodes g') /\ new i j) /\
  (forall j, kept j -> static (g_heap g' j) = static (g_heap g j) /\ parent_of g' j = parent_of g j /\ l_atoms st' j = l_atoms st j) /\
  (forall j, irreducible g' j ->
     (length (l_atoms st' j) = 1%nat -> l_type st' j = Shell) /\ (length (l_atoms st' j) <> 1%nat -> l_type st' j = Unknown)).
Proof.
  intros fuel w s st st' SC W SH TU E. destruct (mark_shells_spec fuel w s st st' SC W SH (fun i H R => TU i (conj H R)) E) as (A1 & A2 & A3 & A4 & A5 & A6).
  cbv zeta. do 5 (split; [assumption|]). intros j (H1 & H2). now apply A6.
Qed.
Print Assumptions C148_shells.

Theorem C148_total : forall fuel w s st, s_combine s = true -> well_formed (l_g st) -> shrinking (l_g st) (l_atoms st) ->
  (length (g_nodes (l_g st)) <= fuel)%nat ->
  (forall i, lone_domain (l_g st) (l_atoms st) i -> (n_min (g_heap (l_g st) i) < 0)%Q \/
     exists d, In d (g_nodes (l_g st)) /\ ancestor (l_g st) i d /\ (n_min (g_heap (l_g st) i) < n_max (g_heap (l_g st) d))%Q) ->
  exists st', mark_shells fuel s (mark_cores w s st) = Done st'.
Proof. exact mark_shells_done. Qed.
Print Assumptions C148_total.

(** ** C149: covalent bonds *)
Theorem C149_bonds : forall fuel w s st st', well_formed (l_g st) -> mark_covalent fuel w s st = Done st' ->
  l_g st' = l_g st /\ l_atoms st' = l_atoms st /\
  (forall i, ~ (irreducible (l_g st) i /\ l_type st i = Unknown) -> l_type st' i = l_type st i) /\
  (forall i, irreducible (l_g st) i -> l_type st i = Unknown -> bond_type w s st i (l_type st' i) /\
     (l_type st' i <> Unknown -> l_coord st' i = Some [fst (snd (w_bond w i)); snd (snd (w_bond w i))])).
Proof.
  intros fuel w s st st' W E. unfold mark_covalent in E.
  assert (N : NoDup (unassigned_nodes st)) by (apply NoDup_filter, (wf_nodup _ W)).
  assert (H : forall i, In i (unassigned_nodes st) -> In i (g_nodes (l_g st)) /\ l_type st i = Unknown) by (intros i Hi; apply in_unassigned in Hi; tauto).
  destruct (mark_bonds_spec fuel w s _ st st' W N H E) as ((K1 & K2 & _) & O & B). split; [exact K1|]. split; [exact K2|]. split.
  - intros i X. apply O. rewrite in_unassigned. unfold irreducible in X. tauto.
  - intros i (X1 & X2) X3. assert (X : In i (unassigned_nodes st)) by (now apply in_unassigned). split; [now apply B|]. now apply (mark_bonds_coord fuel w s (unassigned_nodes st) st).
Qed.
Print Assumptions C149_bonds.

(** The type is determined. *)
Theorem C149_unique : forall w s st i t t', bond_type w s st i t -> bond_type w s st i t' -> t = t'.
Proof.
  intros w s st i t t'. unfold bond_type. destruct (w_bond w i) as [tol [a0 a1]].
  intros [(-> & B & M & G)|[(-> & B & M & G)|[(-> & B & M & G)|(-> & B)]]] [(-> & B' & M' & G')|[(-> & B' & M' & G')|[(-> & B' & M' & G')|(-> & B')]]]; tauto.
Qed.
Print Assumptions C149_unique.

Theorem C149_total : forall fuel w s st, well_formed (l_g st) -> (length (g_nodes (l_g st)) <= fuel)%nat ->
  (forall i, irreducible (l_g st) i -> l_type st i = Unknown ->
     (let '(tol, (a0, a1)) := w_bond w i in tol = true ->
        (exists d, ancestor (l_g st) d i /\ In a0 (l_atoms st d) /\ In a1 (l_atoms st d)) /\
        (exists m0, nth_error (w_metal w) (Z.to_nat a0) = Some m0) /\ (exists m1, nth_error (w_metal w) (Z.to_nat a1) = Some m1)) /\
     (forall d, ancestor (l_g st) d i -> ~ (n_max (g_heap (l_g st) d) == 0)%Q)) ->
  exists st', mark_covalent fuel w s st = Done st'.
Proof.
  intros fuel w s st W F H. unfold mark_covalent.
  assert (X : forall l stx, NoDup l -> l_g stx = l_g st -> l_atoms stx = l_atoms st -> (forall i, In i l -> irreducible (l_g st) i /\ l_type st i = Unknown /\ l_type stx i = Unknown) ->
     exists st', mark_bonds fuel w s stx l = Done st').
  { induction l as [|i t IH]; intros stx N G A HL; [eexists; reflexivity|]. cbn [mark_bonds].
    destruct (HL i (or_introl eq_refl)) as (Hi & Ti & Tx). destruct (H i Hi Ti) as (H1 & H2). inversion N as [|x y Ni N']; subst.
    assert (D : exists st1, mark_bond fuel w s stx i = Done st1) by (apply mark_bond_done; rewrite ?G, ?A; auto; apply Hi).
    destruct D as (st1 & D). rewrite D. cbn [obind].
    destruct (mark_bond_spec fuel w s stx i st1 ltac:(now rewrite G) ltac:(rewrite G; apply Hi) Tx D) as ((K1 & K2 & _) & O & _).
    apply IH; [exact N'|congruence|congruence|]. intros j Hj. destruct (HL j (or_intror Hj)) as (Y1 & Y2 & Y3). split; [exact Y1|]. split; [exact Y2|].
    destruct (O j) as (-> & _); [|exact Y3]. intros ->. contradiction. }
  apply X; auto; [apply NoDup_filter, (wf_nodup _ W)|]. intros i Hi. apply in_unassigned in Hi as (Y1 & Y2 & Y3). now repeat split.
Qed.
Print Assumptions C149_total.

(** ** C150: lone pairs *)
Lemma near_spec w st d c : unset (l_type st c) -> near st d c (view w st c) = true <-> one_neighbour w st d c.
Proof.
  intro U. unfold near, one_neighbour, view, neighbours, has. rewrite negb_true_iff, Nat.ltb_ge.
  destruct (l_coord st c); [reflexivity|]. destruct U as [-> | ->]; reflexivity.
Qed.
Lemma none_unset st d : well_formed (l_g st) -> none_known st (start_known st) d <-> forall x, leaf_below (l_g st) d x -> unset (l_type st x).
Proof.
  intro W. unfold none_known, leaf_below. split.
  - intros H x (L & A). apply (start_spec st W x L). now apply H.
  - intros H x L A. apply (start_spec st W x L). now apply H.
Qed.

Theorem C150_sound : forall fuel argsort w s st st', well_formed (l_g st) -> sorts argsort ->
  mark_lonepairs fuel argsort w s st = Done st' ->
  l_g st' = l_g st /\ l_atoms st' = l_atoms st /\
  forall c, irreducible (l_g st) c -> l_type st' c = l_type st c \/
    unset (l_type st c) /\ exists d, reducible (l_g st) d /\ ancestor (l_g st) d c /\
    (l_type st' c = Shell /\ atom_domain st d /\ (forall x, leaf_below (l_g st) d x -> unset (l_type st x)) \/
     l_type st' c = LonePair /\ enough_charge w s st c /\
       (atom_domain st d /\ (forall x, leaf_below (l_g st) d x -> ~ bonded (l_type st x)) /\
          (exists x, leaf_below (l_g st) d x /\ x <> c /\ atomic (l_type st' x) = true) \/
        ~ atom_domain st d /\ l_atoms st d <> [] /\ (exists x, leaf_below (l_g st) d x /\ bonded (l_type st x)) /\ one_neighbour w st d c)).
Proof.
  intros fuel argsort w s st st' W S E. destruct (lone_sound w s st W fuel argsort st' S E) as (G & A & F). split; [exact G|]. split; [exact A|].
  intros c L. destruct (F c L) as [X|(U & d & Hd & Rd & An & H)]; [now left|right]. split; [exact U|]. exists d. split; [exact Rd|]. split; [exact An|].
  destruct H as [(T & D & N)|(T & B & [(D & N & (x & Lx & Ax & NE & X))|(D & N & (x & Lx & Ax & X) & NR)])].
  - left. split; [exact T|]. split; [exact D|]. now apply none_unset.
  - right. split; [exact T|]. split; [now apply Qltb_lt|]. left. split; [exact D|]. split; [|now exists x].
    intros y (Ly & Ay) Y. apply N. now exists y.
  - right. split; [exact T|]. split; [now apply Qltb_lt|]. right. split; [exact D|]. split; [exact N|]. split; [now exists x|]. now apply near_spec.
Qed.
Print Assumptions C150_sound.

(** [d] is the innermost domain around [c] that contains atoms. *)
Definition own_domain (st : lab) (d c : nat) : Prop := innermost (l_g st) (fun d => l_atoms st d <> []) c d.
Theorem C150_complete : forall fuel argsort w s st st', well_formed (l_g st) -> sorts argsort ->
  (forall a d, In d (g_nodes (l_g st)) -> reducible (l_g st) d -> ancestor (l_g st) a d -> (n_min (g_heap (l_g st) a) < n_min (g_heap (l_g st) d))%Q) ->
  mark_lonepairs fuel argsort w s st = Done st' ->
  forall c d, irreducible (l_g st) c -> unset (l_type st c) -> own_domain st d c ->
  let alone := forall x, leaf_below (l_g st) d x -> unset (l_type st x) /\ own_domain st d x in
  (atom_domain st d -> alone -> l_type st' c = Shell) /\
  (atom_domain st d -> (exists x, leaf_below (l_g st) d x /\ atomic (l_type st x) = true) ->
     (forall x, leaf_below (l_g st) d x -> ~ bonded (l_type st x)) -> enough_charge w s st c -> l_type st' c = LonePair) /\
  (~ atom_domain st d -> (exists x, leaf_below (l_g st) d x /\ bonded (l_type st x)) -> one_neighbour w st d c ->
     enough_charge w s st c -> l_type st' c = LonePair) /\
  (~ atom_domain st d -> alone -> l_type st' c = l_type st c).
Proof.
  intros fuel argsort w s st st' W S OL E c d L U O alone.
  destruct (lone_complete w s st W fuel argsort st' d c S OL E L U O) as (C1 & C2 & C3 & C4).
  assert (AL : alone -> untouched st d) by (intros H x Lx Ax; apply H; now split).
  split; [intros D H; auto|]. split; [|split; [|intros D H; auto]].
  - intros D (x & (Lx & Ax) & X) N B. apply C2; auto; [now exists x| |now apply Qltb_lt]. intros (y & Ly & Ay & Y). apply (N y); [now split|exact Y].
  - intros D (x & (Lx & Ax) & X) NR B. apply C3; auto; [now exists x|now apply near_spec|now apply Qltb_lt].
Qed.
Print Assumptions C150_complete.

Theorem C150_total : forall fuel argsort w s st, well_formed (l_g st) -> sorts argsort -> (length (g_nodes (l_g st)) < fuel)%nat ->
  exists st', mark_lonepairs fuel argsort w s st = Done st'.
Proof. intros fuel argsort w s st W S F. now apply lone_done. Qed.
Print Assumptions C150_total.

(** ** C151: bare electrons *)
Lemma combine_nth_iff {A B} : forall (l : list A) (m : list B) k a b,
  nth_error (combine l m) k = Some (a, b) <-> nth_error l k = Some a /\ nth_error m k = Some b.
Proof.
  induction l as [|x l IH]; intros m k a b.
  - cbn. split; [destruct k; discriminate|]. intros [H _]. destruct k; discriminate.
  - destruct m as [|y m]; [cbn; split; [destruct k; discriminate|intros [_ H]; destruct k; discriminate]|].
    destruct k as [|k]; cbn; [|apply IH]. split; [intro H; injection H as <- <-; auto|]. intros [H1 H2]. congruence.
Qed.
Lemma beyond_nth w i k x : nth_error (beyond_list w i) k = Some x ->
  exists d r, nth_error (w_dists w i) k = Some d /\ nth_error (w_radii w) k = Some r /\ (x == d - r)%Q.
Proof.
  unfold beyond_list. rewrite nth_error_map. destruct (nth_error (combine _ _) k) as [[d r]|] eqn:E; cbn; [|discriminate].
  intro H. injection H as <-. apply combine_nth_iff in E as [E1 E2]. exists d, r. split; [exact E1|]. split; [exact E2|reflexivity].
Qed.
Lemma nth_beyond w i k d r : nth_error (w_dists w i) k = Some d -> nth_error (w_radii w) k = Some r ->
  nth_error (beyond_list w i) k = Some (d - r)%Q.
Proof.
  intros E1 E2. unfold beyond_list. rewrite nth_error_map. now rewrite (proj2 (combine_nth_iff _ _ k d r) (conj E1 E2)).
Qed.

Theorem C151_bare : forall fuel w s st st', well_formed (l_g st) -> mark_metallic_or_bare fuel w s st = Done st' ->
  l_g st' = l_g st /\
  forall i, irreducible (l_g st) i ->
    (* the distance beyond the nearest sphere *)
    ((exists d r, nth_error (w_dists w i) (l_sphere st' i) = Some d /\ nth_error (w_radii w) (l_sphere st' i) = Some r /\ (l_beyond st' i == d - r)%Q) /\
     forall k d r, nth_error (w_dists w i) k = Some d -> nth_error (w_radii w) k = Some r -> (l_beyond st' i <= d - r)%Q) /\
    (~ open (l_type st i) -> l_type st' i = l_type st i) /\
    (open (l_type st i) -> exists depth, depth_spec (l_g st) i depth /\
       let bare := (s_elf s < n_max (g_heap (l_g st) i))%Q /\ (s_depth s < depth)%Q /\ (s_charge s < charge w (l_g st) i)%Q /\
         (s_volume s < volume w (l_g st) i)%Q /\ (s_beyond s < l_beyond st' i)%Q in
       (bare -> l_type st' i = BareElectron) /\ (~ bare -> l_type st' i = MultiCentered)).
Proof.
  intros fuel w s st st' W E. unfold mark_metallic_or_bare in E.
  destruct (measures w st (irreducible_nodes st)) as [st1| |] eqn:E1; cbn [obind] in E; try discriminate.
  assert (N : NoDup (irreducible_nodes st)) by (apply NoDup_filter, (wf_nodup _ W)).
  destruct (measures_spec w _ st st1 N E1) as (G1 & T1 & A1 & O1 & I1).
  assert (EI : irreducible_nodes st1 = irreducible_nodes st) by (unfold irreducible_nodes; now rewrite G1). rewrite EI in E.
  destruct (mark_bares_spec fuel w s _ st1 st' N E) as (G2 & B2 & S2 & _ & _ & I2). split; [congruence|].
  intros i (Hi & Ri). assert (IN : In i (irreducible_nodes st)) by (now apply in_irreducible). destruct (I1 i IN) as (M1 & M2). destruct (I2 i IN) as (X1 & X2).
  split; [|split].
  - rewrite S2, B2, M2. destruct (argmin_spec _ _ M1) as (x & Ex & Lx & _).
    assert (NE : beyond_list w i <> []) by (intro X; rewrite X in Ex; destruct (l_sphere st1 i); discriminate).
    destruct (qmin_list_spec _ NE) as ((y & Iy & Ey) & Ly). split.
    + destruct (beyond_nth w i _ x Ex) as (d & r & Ed & Er & Exq). exists d, r. split; [exact Ed|split; [exact Er|]]. rewrite <- Exq. apply Qle_antisym.
      * apply Ly. now apply nth_error_In in Ex.
      * rewrite Ey. apply In_nth_error in Iy as (j & Ej). now apply (Lx j).
    + intros k d r Ed Er. apply Ly. apply (nth_beyond w i k d r Ed) in Er. now apply nth_error_In in Er.
  - intro NO. rewrite X1; [now rewrite T1|now rewrite T1].
  - intro OP. rewrite T1 in X2. destruct (X2 OP) as (depth & D & T). rewrite G1 in D, T. exists depth. split; [now apply (depth_to_infinite_spec fuel)|].
    cbv zeta. rewrite T. unfold bare_test. rewrite B2.
    destruct (Qltb (s_elf s) _ && Qltb (s_depth s) depth && Qltb (s_charge s) _ && Qltb (s_volume s) _ && Qltb (s_beyond s) _)%bool eqn:BT.
    + split; [reflexivity|]. intro NB. exfalso. apply NB. rewrite !andb_true_iff, !Qltb_lt in BT. tauto.
    + split; [|reflexivity]. intros (Y1 & Y2 & Y3 & Y4 & Y5). apply Qltb_lt in Y1, Y2, Y3, Y4, Y5. rewrite Y1, Y2, Y3, Y4, Y5 in BT. discriminate.
Qed.
Print Assumptions C151_bare.

(** The depth is determined by the graph. *)
Theorem C151_depth_unique : forall g i q q', well_formed g -> In i (g_nodes g) -> depth_spec g i q -> depth_spec g i q' -> q = q'.
Proof. exact depth_spec_unique. Qed.
Print Assumptions C151_depth_unique.

Theorem C151_total : forall fuel w s st, well_formed (l_g st) -> (length (g_nodes (l_g st)) <= fuel)%nat ->
  (forall i, irreducible (l_g st) i -> w_dists w i <> [] /\ w_radii w <> [] /\
     (n_infinite (g_heap (l_g st) i) = true \/ parent_of (l_g st) i <> None)) ->
  exists st', mark_metallic_or_bare fuel w s st = Done st'.
Proof.
  intros fuel w s st W F H. unfold mark_metallic_or_bare.
  assert (N : NoDup (irreducible_nodes st)) by (apply NoDup_filter, (wf_nodup _ W)).
  destruct (measures_done w (irreducible_nodes st) st) as (st1 & E1).
  { intros i Hi. apply in_irreducible in Hi. destruct (H i Hi) as (H1 & H2 & _). unfold beyond_list. destruct (w_dists w i), (w_radii w); try congruence. cbn. discriminate. }
  rewrite E1. cbn [obind]. destruct (measures_spec w _ st st1 N E1) as (G1 & T1 & A1 & _). apply mark_bares_done.
  intros i Hi _. apply in_irreducible in Hi. rewrite G1 in *. destruct (H i Hi) as (_ & _ & H3). apply depth_to_infinite_done; auto. apply Hi.
Qed.
Print Assumptions C151_total.

(** ** C147: the final labels *)
Definition final (t : ftype) : Prop := In t [Shell; Covalent; CovalentMetallic; ShallowCovalentMetallic; LonePair; BareElectron; MultiCentered].

Lemma shells_types fuel w s st st' : well_formed (l_g st) -> (s_combine s = true -> shrinking (l_g st) (l_atoms st)) ->
  (forall i, irreducible (l_g st) i -> l_type st i = Unknown) ->
  mark_shells fuel s (mark_cores w s st) = Done st' ->
  well_formed (l_g st') /\ forall i, irreducible (l_g st') i -> l_type st' i = Unknown \/ l_type st' i = Shell.
Proof.
  intros W SH TU E. destruct (s_combine s) eqn:SC.
  - destruct (mark_shells_spec fuel w s st st' SC W (SH eq_refl) (fun i H R => TU i (conj H R)) E) as (A1 & _ & _ & _ & _ & A6).
    split; [exact A1|]. intros i (H1 & H2). destruct (A6 i H1 H2) as (X & Y). destruct (Nat.eq_dec (length (l_atoms st' i)) 1); auto.
  - unfold mark_shells in E. destruct (singles_spec w s st) as (G1 & A1 & C1 & T1). set (st1 := mark_single (mark_cores w s st)) in *.
    destruct (shell_tests fuel s st1 (reducible_nodes st1)) as [[st2 r]| |] eqn:E2; cbn [obind] in E; try discriminate.
    destruct (shell_tests_spec fuel s (reducible_nodes st1) st1 st2 r) as (S & T2 & A2 & C2 & _ & _); auto.
    { now rewrite G1. } { unfold reducible_nodes. apply NoDup_filter. rewrite G1. apply (wf_nodup _ W). } { intros i. apply in_reducible. }
    assert (ES : st' = st2).
    { clear - E SC. revert E. induction r as [|i t IH]; cbn [combine_shells]; intro E; [congruence|]. unfold combine_shell in E. rewrite SC in E.
      destruct (deep_children fuel (l_g st2) i); cbn [obind] in E; try discriminate. now apply IH. }
    subst st'. rewrite G1 in S. split; [now apply (sim_wf _ _ S)|]. intros i (H1 & H2). rewrite T2, T1.
    destruct (_ && _)%bool; [now right|left]. apply TU. pose proof S as ((_ & NN & _) & _ & ST & _). rewrite NN in H1. split; [exact H1|].
    intro R. apply H2. unfold reducible. now rewrite (static_red (l_g st) _ i ST).
Qed.

Lemma bond_type_kinds w s st i t : bond_type w s st i t -> t = Unknown \/ t = Covalent \/ t = CovalentMetallic \/ t = ShallowCovalentMetallic.
Proof. unfold bond_type. destruct (w_bond w i) as [tol [a0 a1]]. intuition. Qed.

Lemma last_types fuel w s st st' : well_formed (l_g st) -> mark_metallic_or_bare fuel w s st = Done st' ->
  l_g st' = l_g st /\ (forall i, irreducible (l_g st) i -> l_type st' i = BareElectron \/ l_type st' i = MultiCentered \/ l_type st' i = l_type st i /\ ~ open (l_type st i)).
Proof.
  intros W E. destruct (C151_bare fuel w s st st' W E) as (G & H). split; [exact G|]. intros i Hi. destruct (H i Hi) as (_ & H1 & H2).
  assert (D : {open (l_type st i)} + {~ open (l_type st i)}).
  { destruct (Bool.bool_dec (ftype_eqb (l_type st i) Metallic || ftype_eqb (l_type st i) BareElectron || ftype_eqb (l_type st i) Unknown)%bool true) as [X|X];
      rewrite open_dec in X; [now left|now right]. }
  destruct D as [O|O]; [|right; right; auto]. unfold mark_metallic_or_bare in E.
  destruct (measures w st (irreducible_nodes st)) as [st1| |] eqn:E1; cbn [obind] in E; try discriminate.
  assert (N : NoDup (irreducible_nodes st)) by (apply NoDup_filter, (wf_nodup _ W)).
  destruct (measures_spec w _ st st1 N E1) as (G1 & T1 & _).
  assert (EI : irreducible_nodes st1 = irreducible_nodes st) by (unfold irreducible_nodes; now rewrite G1). rewrite EI in E.
  destruct (mark_bares_spec fuel w s _ st1 st' N E) as (_ & _ & _ & _ & _ & I2). assert (IN : In i (irreducible_nodes st)) by (now apply in_irreducible).
  destruct (I2 i IN) as (_ & X2). rewrite T1 in X2. destruct (X2 O) as (depth & _ & ->). destruct (bare_test _ _ _ _ _ _); auto.
Qed.

(** The last step leaves nothing unassigned: the exception at the end of the labelling is never reached. *)
Theorem C147_assigned : forall fuel w s st st', well_formed (l_g st) -> mark_metallic_or_bare fuel w s st = Done st' -> unassigned_nodes st' = [].
Proof.
  intros fuel w s st st' W E. destruct (last_types fuel w s st st' W E) as (G & H). destruct (unassigned_nodes st') as [|i t] eqn:U; [reflexivity|exfalso].
  assert (Hi : In i (unassigned_nodes st')) by (rewrite U; now left). apply in_unassigned in Hi as (H1 & H2 & H3). rewrite G in *.
  destruct (H i (conj H1 H2)) as [X|[X|(X & Y)]]; rewrite H3 in X; try discriminate. apply Y. rewrite <- X. unfold open. auto.
Qed.
Print Assumptions C147_assigned.

Theorem C147_labels : forall fuel argsort w s st st', well_formed (l_g st) -> sorts argsort ->
  (s_combine s = true -> shrinking (l_g st) (l_atoms st)) ->
  (forall i, irreducible (l_g st) i -> l_type st i = Unknown) ->
  label_features fuel argsort w s st = Done st' ->
  well_formed (l_g st') /\ forall i, irreducible (l_g st') i -> final (l_type st' i).
Proof.
  intros fuel argsort w s st st' W S SH TU E. unfold label_features in E.
  destruct (mark_shells fuel s (mark_cores w s st)) as [st1| |] eqn:E1; cbn [obind] in E; try discriminate.
  destruct (mark_covalent fuel w s st1) as [st2| |] eqn:E2; cbn [obind] in E; try discriminate.
  destruct (mark_lonepairs fuel argsort w s st2) as [st3| |] eqn:E3; cbn [obind] in E; try discriminate.
  destruct (mark_metallic_or_bare fuel w s st3) as [st4| |] eqn:E4; cbn [obind] in E; try discriminate.
  assert (st4 = st').
  { destruct (negb _ && _)%bool; [discriminate|]. destruct (unassigned_nodes st4); [congruence|discriminate]. }
  subst st4. destruct (shells_types fuel w s st st1 W SH TU E1) as (W1 & T1).
  destruct (C149_bonds fuel w s st1 st2 W1 E2) as (G2 & _ & O2 & B2). rewrite <- G2 in W1.
  destruct (C150_sound fuel argsort w s st2 st3 W1 S E3) as (G3 & _ & T3).
  destruct (last_types fuel w s st3 st' ltac:(now rewrite G3) E4) as (G4 & T4).
  split; [now rewrite G4, G3|]. intros i Hi. rewrite G4 in Hi. destruct (T4 i Hi) as [X|[X|(X & NO)]]; rewrite X; [unfold final; cbn; tauto..|].
  rewrite G3 in Hi. unfold final. destruct (T3 i Hi) as [Y|(_ & d & _ & _ & [(Y & _)|(Y & _)])]; [|rewrite Y; cbn; tauto..].
  rewrite Y in NO |- *. rewrite G2 in Hi. destruct (T1 i Hi) as [Z1|Z1].
  - destruct (B2 i Hi Z1) as (B & _). destruct (bond_type_kinds _ _ _ _ _ B) as [K|[K|[K|K]]]; rewrite K in NO |- *; cbn; try tauto.
    exfalso. apply NO. unfold open. auto.
  - rewrite O2 by (intros (_ & K); congruence). rewrite Z1. cbn. tauto.
Qed.
Print Assumptions C147_labels.

(** Unless low pseudopotentials are ignored, every atom is nearest to a core, shell or lone pair. *)
Theorem C147_atoms : forall fuel argsort w s st st', s_ignore_low s = false ->
  (forall i, (length (w_dists w i) <= length (w_metal w))%nat) -> (0 < length (w_metal w))%nat ->
  label_features fuel argsort w s st = Done st' ->
  forall a, (a < length (w_metal w))%nat -> exists i, irreducible (l_g st') i /\ atomic (l_type st' i) = true /\ nearest_atom w i = Z.of_nat a.
Proof.
  intros fuel argsort w s st st' IG LD LP E a La. unfold label_features in E.
  destruct (mark_shells fuel s (mark_cores w s st)) as [st1| |]; cbn [obind] in E; try discriminate.
  destruct (mark_covalent fuel w s st1) as [st2| |]; cbn [obind] in E; try discriminate.
  destruct (mark_lonepairs fuel argsort w s st2) as [st3| |]; cbn [obind] in E; try discriminate.
  destruct (mark_metallic_or_bare fuel w s st3) as [st4| |]; cbn [obind] in E; try discriminate.
  rewrite IG in E. cbn [negb] in E. rewrite andb_true_r in E.
  destruct (Nat.eqb_spec (length (np_unique (map (nearest_atom w) (filter (fun i => atomic (l_type st4 i)) (irreducible_nodes st4))))) (length (w_metal w))) as [L|L]; cbn [negb] in E; [|discriminate].
  assert (st4 = st') by (destruct (unassigned_nodes st4); congruence). subst st4.
  set (found := map (nearest_atom w) _) in *.
  assert (R : incl (np_unique found) (map Z.of_nat (seq 0 (length (w_metal w))))).
  { intros x Hx. rewrite np_unique_in in Hx. unfold found in Hx. apply in_map_iff in Hx as (i & <- & _). unfold nearest_atom.
    destruct (argmin (w_dists w i)) as [r|] eqn:A.
    - destruct (argmin_spec _ _ A) as (y & Y & _). assert (r < length (w_dists w i))%nat by (apply nth_error_Some; congruence).
      apply in_map, in_seq. specialize (LD i). lia.
    - apply (in_map Z.of_nat _ 0%nat), in_seq. lia. }
  assert (N : NoDup (np_unique found)).
  { clear. pose proof (np_unique_sorted found) as SS. induction SS as [|x l SS IH F]; constructor; auto. rewrite Forall_forall in F. intro X. specialize (F x X). lia. }
  assert (I : In (Z.of_nat a) (np_unique found)).
  { apply (NoDup_length_incl N) in R; [|rewrite map_length, seq_length; lia]. apply R. apply in_map, in_seq. lia. }
  rewrite np_unique_in in I. unfold found in I. apply in_map_iff in I as (i & Ei & Hi). apply filter_In in Hi as (Hi & Ti). apply in_irreducible in Hi.
  exists i. split; [exact Hi|]. split; [exact Ti|exact Ei].
Qed.
Print Assumptions C147_atoms.


(** ** Examples *)
(** Two atoms.  The infinite root 0 contains both; domain 1 (leaves 3 and 4) contains atom 0, domain 6 (leaves 7 and 8)
    contains atom 1 and none of its leaves does; the leaf 2 lies between the atoms, the leaf 5 in a void. *)
Definition mk_graph := getg (build empty_graph
  [(true, [0; 1; 2; 3; 4; 5]%nat, true, 0, 1, None); (true, [0; 1]%nat, false, 1, 2, Some 0%nat);
   (false, [2]%nat, false, 1, 4, Some 0%nat); (false, [0]%nat, false, 2, 4, Some 1%nat);
   (false, [1]%nat, false, 2, 3, Some 1%nat); (false, [3]%nat, false, 1, 4, Some 0%nat);
   (true, [4; 5]%nat, false, 1, 3, Some 0%nat); (false, [4]%nat, false, 3, 4, Some 6%nat); (false, [5]%nat, false, 3, 4, Some 6%nat)]%Q).
Definition mk_atoms (i : nat) : list Z := match i with 0%nat => [0; 1] | 1%nat | 3%nat => [0] | 6%nat => [1] | _ => [] end.
Definition mk_state := Lab mk_graph (fun _ => Unknown) mk_atoms (fun _ => None) (fun _ => 0%nat) (fun _ => 0%Q).
Definition mk_world := World (fun _ => false)
  (fun i => match i with 2%nat => [1; 1] | 5%nat => [5; 5] | 9%nat => [3; 0] | 3%nat => [0; 3] | _ => [1; 2] end)%Q
  (fun _ => 1%Q) (fun _ => 1%Q) (fun i => match i with 4%nat => [0] | _ => [0; 1] end) (fun i => (Nat.eqb i 2, (0, 1)))
  [false; false] [1; 1]%Q.
Definition mk_settings (c : bool) := Settings (1 # 10) (1 # 4) c (1 # 2) (1 # 2) (1 # 2) (1 # 2) (1 # 2) (1 # 2) (1 # 2) false.
Definition labels (o : outcome lab) : option (list (nat * ftype)) :=
  match o with Done st => Some (map (fun i => (i, l_type st i)) (irreducible_nodes st)) | _ => None end.
Example mk_wf : well_formed mk_graph.
Proof. apply built. vm_compute. discriminate. Qed.
Example mk_shrinking : shrinking mk_graph mk_atoms.
Proof.
  intros c p Hc P.
  assert (F : forallb (fun c => match parent_of mk_graph c with Some p => Nat.leb (length (mk_atoms c)) (length (mk_atoms p)) | None => true end) (g_nodes mk_graph) = true)
    by (vm_compute; reflexivity).
  rewrite forallb_forall in F. specialize (F c Hc). rewrite P in F. apply Nat.leb_le. exact F.
Qed.
Example C147_ex : labels (label_features 20 sort_idx mk_world (mk_settings true) mk_state) =
  Some [(2%nat, Covalent); (3%nat, Shell); (4%nat, LonePair); (5%nat, BareElectron); (9%nat, Shell)].
Proof. vm_compute. reflexivity. Qed.
Example C148_ex : labels (mark_shells 20 (mk_settings true) (mark_cores mk_world (mk_settings true) mk_state)) =
  Some [(2%nat, Unknown); (3%nat, Shell); (4%nat, Unknown); (5%nat, Unknown); (9%nat, Shell)].
Proof. vm_compute. reflexivity. Qed.
Example C148_ex_domain : shell_domain (mk_settings true) mk_graph mk_atoms 6.
Proof.
  split.
  - split; [vm_compute; tauto|]. split; [reflexivity|]. split; [reflexivity|]. split; [reflexivity|].
    intros c Hc P.
    assert (F : forallb (fun c => match parent_of mk_graph c with Some 6%nat => negb (Nat.eqb (length (mk_atoms c)) 1) | _ => true end) (g_nodes mk_graph) = true)
      by (vm_compute; reflexivity).
    rewrite forallb_forall in F. specialize (F c Hc). rewrite P in F. apply negb_true_iff, Nat.eqb_neq in F. exact F.
  - exists 4%Q. split; [|vm_compute; reflexivity]. split; [vm_compute; discriminate|]. split.
    + intros d Hd _. apply Qle_bool_iff. revert d Hd. apply forallb_forall. vm_compute. reflexivity.
    + right. exists 7%nat. split; [vm_compute; tauto|]. split; [now constructor|reflexivity].
Qed.
Definition mk_done (o : outcome lab) : lab := match o with Done st => st | _ => mk_state end.
(** The state before the covalent bonds, the lone pairs and the last step. *)
Definition mk_1 := mk_done (mark_shells 20 (mk_settings true) (mark_cores mk_world (mk_settings true) mk_state)).
Definition mk_2 := mk_done (mark_covalent 20 mk_world (mk_settings true) mk_1).
Definition mk_3 := mk_done (mark_lonepairs 20 sort_idx mk_world (mk_settings true) mk_2).
Example C149_ex : labels (Done mk_2) = Some [(2%nat, Covalent); (3%nat, Shell); (4%nat, Unknown); (5%nat, Unknown); (9%nat, Shell)] /\
  l_coord mk_2 2 = Some [0; 1].
Proof. split; vm_compute; reflexivity. Qed.
Example C150_ex : labels (Done mk_3) = Some [(2%nat, Covalent); (3%nat, Shell); (4%nat, LonePair); (5%nat, Unknown); (9%nat, Shell)] /\
  own_domain mk_2 1 4 /\ atom_domain mk_2 1.
Proof.
  split; [vm_compute; reflexivity|]. split; [|split; vm_compute; reflexivity]. split; [now constructor|]. split; [vm_compute; discriminate|].
  intros q A _. inversion A as [? P|? p P A']; subst; vm_compute in P; injection P as <-; [now left|now right].
Qed.
Example C151_ex : labels (mark_metallic_or_bare 20 mk_world (mk_settings true) mk_3) =
  Some [(2%nat, Covalent); (3%nat, Shell); (4%nat, LonePair); (5%nat, BareElectron); (9%nat, Shell)] /\
  depth_spec (l_g mk_3) 5 3.
Proof.
  split; [vm_compute; reflexivity|]. apply (depth_anc _ _ _ 0%nat); [reflexivity| |reflexivity]. split; [now constructor|]. split; [reflexivity|].
  intros q A _. inversion A as [? P|? p P A']; subst; vm_compute in P; injection P as <-; [now left|]. right. exact A'.
Qed.

(** ** C152: without [combine_shells] the features of a shared shell need not be shells *)
(** As before, but the leaf 7 of the shared shell lies on the line between the atoms. *)
Definition un_world := World (w_cage mk_world) (w_dists mk_world) (w_basin_charges mk_world) (w_basin_volumes mk_world)
  (fun _ => [0; 1]) (fun i => (Nat.eqb i 7, (0, 1))) (w_metal mk_world) (w_radii mk_world).
Definition un_settings := Settings (1 # 10) (1 # 4) false (1 # 4) (1 # 2) (1 # 2) (1 # 2) (1 # 2) (1 # 2) (1 # 2) true.
Theorem C152_uncombined_refuted : exists fuel w s st st' i c, s_combine s = false /\ well_formed (l_g st) /\ shrinking (l_g st) (l_atoms st) /\
  shell_domain s (l_g st) (l_atoms st) i /\ irreducible (l_g st') c /\ ancestor (l_g st') i c /\
  label_features fuel sort_idx w s st = Done st' /\ l_type st' c = Covalent.
Proof.
  destruct (label_features 20 sort_idx un_world un_settings mk_state) as [st'| |] eqn:E; [|vm_compute in E; discriminate..].
  exists 20%nat, un_world, un_settings, mk_state, st', 6%nat, 7%nat. split; [reflexivity|]. split; [apply mk_wf|]. split; [apply mk_shrinking|].
  split; [exact C148_ex_domain|].
  assert (X : st' = mk_done (label_features 20 sort_idx un_world un_settings mk_state)) by now rewrite E.
  split; [subst st'; split; [vm_compute; tauto|vm_compute; discriminate]|]. split; [subst st'; constructor; vm_compute; reflexivity|].
  split; [exact E|]. subst st'. vm_compute. reflexivity.
Qed.
Print Assumptions C152_uncombined_refuted.

(** ** C153: bonds between separate trees *)
(** Two roots, one per atom: no domain contains both atoms of the bond. *)
Definition pair_graph := getg (build empty_graph
  [(true, [0; 1]%nat, false, 1, 2, None); (false, [0]%nat, false, 2, 4, Some 0%nat); (false, [1]%nat, false, 2, 3, Some 0%nat);
   (false, [2]%nat, false, 1, 4, None)]%Q).
Definition pair_state := Lab pair_graph (fun _ => Unknown) (fun i => match i with 0%nat | 1%nat => [0] | 3%nat => [1] | _ => [] end)
  (fun _ => None) (fun _ => 0%nat) (fun _ => 0%Q).
Theorem C153_separate_refuted : exists w s st, well_formed (l_g st) /\ (forall i, irreducible (l_g st) i -> l_type st i = Unknown) /\
  forall fuel, (3 <= fuel)%nat -> mark_covalent fuel w s st = Raised.
Proof.
  exists (World (fun _ => false) (fun _ => [1; 1]%Q) (fun _ => 1%Q) (fun _ => 1%Q) (fun _ => [0; 1]) (fun i => (Nat.eqb i 2, (0, 1))) [false; false] [1; 1]%Q),
    (mk_settings true), pair_state. split; [apply built; vm_compute; discriminate|]. split; [reflexivity|].
  intros [|[|[|fuel]]] L; try lia. reflexivity.
Qed.
Print Assumptions C153_separate_refuted.

(** ** C154: an isolated finite feature *)
Theorem C154_isolated_refuted : exists w s st, well_formed (l_g st) /\ (forall i, irreducible (l_g st) i -> l_type st i = Unknown /\ w_dists w i <> []) /\ w_radii w <> [] /\
  forall fuel, (3 <= fuel)%nat -> mark_metallic_or_bare fuel w s st = Raised.
Proof.
  exists mk_world, (mk_settings true), pair_state. split; [apply built; vm_compute; discriminate|].
  split; [intros i _; split; [reflexivity|]; cbn; destruct i as [|[|[|[|[|[|[|[|[|[|]]]]]]]]]]; discriminate|]. split; [discriminate|].
  intros [|[|[|fuel]]] L; try lia. reflexivity.
Qed.
Print Assumptions C154_isolated_refuted.

(** ** C272: a shell, core or lone pair is coordinated to its nearest atom alone *)
(** The check for bonds reads, and thereby stores, the neighbours of the leaf 4 while it has no label.  The branch for
    ionic lone pairs does not discard them. *)
Definition ionic_world := World (w_cage mk_world) (w_dists mk_world) (w_basin_charges mk_world) (w_basin_volumes mk_world)
  (fun i => match i with 4%nat => [0; 1; 1] | _ => [0; 1] end) (fun i => (Nat.eqb i 2 || Nat.eqb i 4, (0, 1))) (w_metal mk_world) (w_radii mk_world).
Theorem C272_nearest_refuted : exists fuel w s st st' i, well_formed (l_g st) /\
  (forall i, l_type st i = Unknown /\ l_coord st i = None) /\ label_features fuel sort_idx w s st = Done st' /\
  irreducible (l_g st') i /\ l_type st' i = LonePair /\ nearest_atom w i = 0 /\ snd (coord_indices w st' i) = [0; 1; 1].
Proof.
  exists 20%nat, ionic_world, (mk_settings true), mk_state, (mk_done (label_features 20 sort_idx ionic_world (mk_settings true) mk_state)), 4%nat.
  split; [exact mk_wf|]. split; [split; reflexivity|]. split; [vm_compute; reflexivity|].
  split; [split; [vm_compute; tauto|vm_compute; discriminate]|]. split; [|split]; vm_compute; reflexivity.
Qed.
Print Assumptions C272_nearest_refuted.
(** With the neighbours read only by the branch for molecules, the lone pair has one neighbour. *)
Example C272_ex : match label_features 20 sort_idx mk_world (mk_settings true) mk_state with
  | Done st => l_type st 4%nat = LonePair /\ snd (coord_indices mk_world st 4%nat) = [0] | _ => False end.
Proof. vm_compute. auto. Qed.

(** ** C273: the neighbours of a feature *)
Theorem C273_kinds : forall fuel argsort w s st st' i, (forall i, l_coord st i = None) ->
  label_features fuel argsort w s st = Done st' ->
  let c := snd (coord_indices w st' i) in
  c = [nearest_atom w i] \/ c = w_cnn w i \/ exists a b, w_bond w i = (true, (a, b)) /\ c = [a; b].
Proof.
  intros fuel argsort w s st st' i N H. apply (kinds_read w st' i). eapply kinds_label; [exact H|].
  intros j c E. rewrite N in E. discriminate.
Qed.
Print Assumptions C273_kinds.
(** All three occur: the lone pair has its nearest atom, the bond its two atoms, and the refuted case its neighbours. *)
Example C273_ex :
  match label_features 20 sort_idx mk_world (mk_settings true) mk_state, label_features 20 sort_idx ionic_world (mk_settings true) mk_state with
  | Done st, Done st1 => snd (coord_indices mk_world st 4%nat) = [nearest_atom mk_world 4%nat] /\
      snd (coord_indices ionic_world st1 4%nat) = w_cnn ionic_world 4%nat /\ nearest_atom ionic_world 4%nat = 0 /\
      l_type st 2%nat = Covalent /\ snd (coord_indices mk_world st 2%nat) = [0; 1]
  | _, _ => False end.
Proof. vm_compute. auto 10. Qed.
