(** Marking of lone pairs. *)
From Coq Require Import QArith Permutation Sorted.
From Verif Require Import Base RootsModel UnionModel LabelsModel NodesModel NodesSpec NodesProofs NodesEdit NodesTop
  ChargeModel CoordMerge MarkModel MarkProofs.
Local Open Scope Z_scope.

Lemma is_known_in known g i : is_known known g i = true <-> In (key_of g i) known.
Proof.
  unfold is_known, key_of. rewrite existsb_exists. split.
  - intros (x & H & E). apply Z.eqb_eq in E. now subst.
  - intro H. eexists. split; [exact H|apply Z.eqb_refl].
Qed.
Lemma is_known_app known k g i : is_known (known ++ k) g i = is_known known g i || is_known k g i.
Proof. unfold is_known. now rewrite existsb_app. Qed.

Section Lone.
Variables (w : world) (s : settings) (st0 : lab).
Let g := l_g st0.
Hypothesis W : well_formed g.
Definition leaf (c : nat) : Prop := In c (g_nodes g) /\ ~ reducible g c.
Definition big (c : nat) : bool := Qltb (s_min_charge s) (charge w g c).
Definition near (d c : nat) (coord : list Z) : bool := negb (Nat.ltb 1 (length (filter (has st0 d) coord))).

Lemma leaf_red c : leaf c -> n_red (g_heap g c) = false.
Proof. intros (_ & R). unfold reducible in R. destruct (n_red (g_heap g c)); [now destruct R|reflexivity]. Qed.

(** States reached from [st0]. *)
Definition reach (st : lab) : Prop := l_g st = g /\ l_atoms st = l_atoms st0.

Lemma key_other c j known : In c (g_nodes g) -> In j (g_nodes g) -> c <> j ->
  is_known (known ++ [n_key (g_heap g c)]) g j = is_known known g j.
Proof.
  intros Hc Hj NE. rewrite is_known_app. cbn. rewrite !orb_false_r. destruct (Z.eqb_spec (n_key (g_heap g j)) (n_key (g_heap g c))) as [E|E].
  - exfalso. apply NE. symmetry. now apply (wf_key_inj g j c W).
  - apply orb_false_r.
Qed.
Lemma key_self c known : is_known (known ++ [n_key (g_heap g c)]) g c = true.
Proof. rewrite is_known_app. cbn. rewrite Z.eqb_refl. apply orb_true_r. Qed.

(** One loop over the children of a domain. *)
Lemma ionic_fold : forall l st known, reach st -> NoDup l -> incl l (g_nodes g) ->
  let '(st1, known1) := fold_left (lone_ionic w s) l (st, known) in
  reach st1 /\ incl known known1 /\
  forall c, leaf c ->
    let act := In c l /\ is_known known g c = false /\ big c = true in
    (act -> l_type st1 c = LonePair /\ is_known known1 g c = true) /\
    (~ act -> l_type st1 c = l_type st c /\ is_known known1 g c = is_known known g c /\ l_coord st1 c = l_coord st c).
Proof.
  induction l as [|i t IH]; intros st known (R1 & R2) N I; cbn [fold_left].
  { split; [now split|]. split; [apply incl_refl|]. intros c L. cbn. tauto. }
  inversion N as [|x y Ni N']; subst. assert (It : incl t (g_nodes g)) by (intros x Hx; apply I; now right).
  assert (Hi : In i (g_nodes g)) by (apply I; now left).
  unfold lone_ionic at 2. rewrite R1. destruct (n_red (g_heap g i) || is_known known g i)%bool eqn:SK.
  - specialize (IH st known (conj R1 R2) N' It). destruct (fold_left _ t _) as [st1 known1]. destruct IH as (RR & IC & IH).
    split; [exact RR|]. split; [exact IC|]. intros c L. destruct (IH c L) as (A & B). split.
    + intros ([<-|Hc] & Kc & Bc); [|apply A; auto]. rewrite (leaf_red i L), Kc in SK. discriminate.
    + intro Na. apply B. intros (Hc & X). apply Na. split; [now right|exact X].
  - apply orb_false_iff in SK as (Ri & Ki). fold (big i). destruct (big i) eqn:Bi.
    + assert (RR0 : reach (set_type st i LonePair)) by now split.
      specialize (IH (set_type st i LonePair) (known ++ [n_key (g_heap g i)]) RR0 N' It).
      destruct (fold_left _ t _) as [st1 known1]. destruct IH as (RR & IC & IH). split; [exact RR|].
      split; [intros k Hk; apply IC; apply in_or_app; now left|]. intros c L. destruct (IH c L) as (A & B).
      destruct (Nat.eq_dec i c) as [<-|NE].
      * destruct B as (B1 & B2 & B3); [tauto|]. cbn in B1. rewrite put_same in B1. split; [intros _; split; [exact B1|]|].
        { rewrite B2. apply key_self. }
        intro Na. exfalso. apply Na. split; [now left|auto].
      * assert (Hc : In c (g_nodes g)) by apply L. rewrite (key_other i c known Hi Hc NE) in A, B. cbn in B. rewrite put_other in B by exact NE.
        split.
        { intros ([E|Hc'] & X); [contradiction|]. now apply A. }
        { intro Na. apply B. intros (Hc' & X). apply Na. split; [now right|exact X]. }
    + specialize (IH st known (conj R1 R2) N' It). destruct (fold_left _ t _) as [st1 known1]. destruct IH as (RR & IC & IH).
      split; [exact RR|]. split; [exact IC|]. intros c L. destruct (IH c L) as (A & B). split.
      * intros ([<-|Hc] & Kc & Bc); [congruence|apply A; auto].
      * intro Na. apply B. intros (Hc & X). apply Na. split; [now right|exact X].
Qed.

Definition view (st : lab) (c : nat) : list Z :=
  match l_coord st c with Some x => x | None => if atomic (l_type st c) then [nearest_atom w c] else w_cnn w c end.

Lemma bonded_fold d : forall l st known, reach st -> NoDup l -> incl l (g_nodes g) ->
  let '(st1, known1) := fold_left (lone_bonded w s d) l (st, known) in
  reach st1 /\ incl known known1 /\
  forall c, leaf c ->
    let act := In c l /\ is_known known g c = false /\ big c = true /\ near d c (view st c) = true in
    (act -> l_type st1 c = LonePair /\ is_known known1 g c = true) /\
    (~ act -> l_type st1 c = l_type st c /\ is_known known1 g c = is_known known g c /\
       (l_coord st1 c = l_coord st c \/ is_known known g c = false /\ l_coord st c = None /\ l_coord st1 c = Some (view st c))).
Proof.
  induction l as [|i t IH]; intros st known (R1 & R2) N I; cbn [fold_left].
  { split; [now split|]. split; [apply incl_refl|]. intros c L. cbn. tauto. }
  inversion N as [|x y Ni N']; subst. assert (It : incl t (g_nodes g)) by (intros x Hx; apply I; now right).
  assert (Hi : In i (g_nodes g)) by (apply I; now left).
  unfold lone_bonded at 2. rewrite R1. destruct (n_red (g_heap g i) || is_known known g i)%bool eqn:SK.
  - specialize (IH st known (conj R1 R2) N' It). destruct (fold_left _ t _) as [st1 known1]. destruct IH as (RR & IC & IH).
    split; [exact RR|]. split; [exact IC|]. intros c L. destruct (IH c L) as (A & B). split.
    + intros ([<-|Hc] & Kc & Bc); [|apply A; auto]. rewrite (leaf_red i L), Kc in SK. discriminate.
    + intro Na. apply B. intros (Hc & X). apply Na. split; [now right|exact X].
  - apply orb_false_iff in SK as (Ri & Ki).
    assert (CI : exists st1, coord_indices w st i = (st1, view st i) /\ reach st1 /\ l_type st1 = l_type st /\
       (forall j, j <> i -> l_coord st1 j = l_coord st j) /\ l_coord st1 i = Some (view st i)).
    { unfold coord_indices, view. destruct (l_coord st i) as [c|] eqn:CC.
      - exists st. split; [reflexivity|]. split; [now split|]. split; [reflexivity|]. auto.
      - eexists. split; [reflexivity|]. split; [now split|]. split; [reflexivity|]. cbn. split; [|now rewrite put_same].
        intros j NE. rewrite put_other; [reflexivity|]. now intros ->. }
    destruct CI as (sta & EC & (Ra1 & Ra2) & Ta & Ca & Cai). rewrite EC.
    assert (HAS : filter (has sta d) (view st i) = filter (has st0 d) (view st i)).
    { apply filter_ext. intro a. unfold has. now rewrite Ra2. }
    rewrite HAS, Ra1. fold (big i).
    destruct (Nat.ltb 1 (length (filter (has st0 d) (view st i)))) eqn:NR.
    + specialize (IH sta known (conj Ra1 Ra2) N' It). destruct (fold_left _ t _) as [st1 known1]. destruct IH as (RR & IC & IH).
      split; [exact RR|]. split; [exact IC|]. intros c L. destruct (IH c L) as (A & B).
      destruct (Nat.eq_dec c i) as [->|NE].
      * destruct B as (B1 & B2 & B3); [tauto|]. split.
        { intros (_ & _ & _ & X). unfold near in X. rewrite NR in X. discriminate. }
        intros _. rewrite B1, Ta. split; [reflexivity|]. split; [exact B2|].
        destruct B3 as [B3|(B3 & B4 & B5)]; [|congruence]. rewrite B3, Cai. destruct (l_coord st i) as [cc|] eqn:CC; [|auto].
        left. unfold view. now rewrite CC.
      * assert (VW : view sta c = view st c) by (unfold view; now rewrite Ta, Ca). rewrite VW, Ta, (Ca c NE) in *. split.
        { intros ([E|Hc] & X); [congruence|]. now apply A. }
        intro Na. apply B. intros (Hc & X). apply Na. split; [now right|exact X].
    + destruct (big i) eqn:Bi.
      * assert (RR0 : reach (set_coord (set_type sta i LonePair) i None)) by now split.
        specialize (IH (set_coord (set_type sta i LonePair) i None) (known ++ [n_key (g_heap g i)]) RR0 N' It).
        destruct (fold_left _ t _) as [st1 known1]. destruct IH as (RR & IC & IH). split; [exact RR|].
        split; [intros k Hk; apply IC; apply in_or_app; now left|]. intros c L. destruct (IH c L) as (A & B).
        destruct (Nat.eq_dec i c) as [<-|NE].
        { destruct B as (B1 & B2 & B3); [tauto|]. cbn in B1. rewrite put_same in B1. split; [intros _; split; [exact B1|]|].
          - rewrite B2. apply key_self.
          - intro Na. exfalso. apply Na. split; [now left|]. split; [exact Ki|]. split; [exact Bi|]. unfold near. now rewrite NR. }
        assert (Hc : In c (g_nodes g)) by apply L.
        assert (VW : view (set_coord (set_type sta i LonePair) i None) c = view st c).
        { unfold view. cbn. rewrite !put_other by exact NE. rewrite Ta, Ca by congruence. reflexivity. }
        rewrite VW, (key_other i c known Hi Hc NE) in A, B. cbn in B. rewrite !put_other, Ta, Ca in B by congruence.
        split.
        { intros ([E|Hc'] & X); [contradiction|]. now apply A. }
        { intro Na. apply B. intros (Hc' & X). apply Na. split; [now right|exact X]. }
      * specialize (IH sta known (conj Ra1 Ra2) N' It). destruct (fold_left _ t _) as [st1 known1]. destruct IH as (RR & IC & IH).
        split; [exact RR|]. split; [exact IC|]. intros c L. destruct (IH c L) as (A & B).
        destruct (Nat.eq_dec c i) as [->|NE].
        { destruct B as (B1 & B2 & B3); [tauto|]. split.
          - intros (_ & _ & X & _). congruence.
          - intros _. rewrite B1, Ta. split; [reflexivity|]. split; [exact B2|].
            destruct B3 as [B3|(B3 & B4 & B5)]; [|congruence]. rewrite B3, Cai. destruct (l_coord st i) as [cc|] eqn:CC; [|auto].
            left. unfold view. now rewrite CC. }
        assert (VW : view sta c = view st c) by (unfold view; now rewrite Ta, Ca). rewrite VW, Ta, (Ca c NE) in *. split.
        { intros ([E|Hc] & X); [congruence|]. now apply A. }
        intro Na. apply B. intros (Hc & X). apply Na. split; [now right|exact X].
Qed.

Lemma bonded_coord d c : forall l r r1, ~ In c l -> fold_left (lone_bonded w s d) l r = r1 -> l_coord (fst r1) c = l_coord (fst r) c.
Proof.
  induction l as [|i t IH]; intros r r1 N E; cbn [fold_left] in E; [now subst|].
  rewrite (IH _ r1 (fun H => N (or_intror H)) E). assert (NE : i <> c) by (intros ->; apply N; now left).
  destruct r as [st known]. unfold lone_bonded, coord_indices.
  destruct (n_red (g_heap (l_g st) i) || is_known known (l_g st) i)%bool; [reflexivity|].
  destruct (l_coord st i); destruct (Nat.ltb 1 _); try destruct (Qltb _ _); cbn; rewrite ?put_other by exact NE; reflexivity.
Qed.

Lemma shell_fold : forall l st, let st1 := fold_left (fun st c => set_type st c Shell) l st in
  l_g st1 = l_g st /\ l_atoms st1 = l_atoms st /\ l_coord st1 = l_coord st /\
  forall c, (In c l -> l_type st1 c = Shell) /\ (~ In c l -> l_type st1 c = l_type st c).
Proof.
  induction l as [|i t IH]; intros st; cbn [fold_left].
  { cbn. repeat (split; [reflexivity|]). intro c. split; [intros []|reflexivity]. }
  destruct (IH (set_type st i Shell)) as (A & B & C & D). cbn in *. repeat (split; [assumption|]). intro c. destruct (D c) as (D1 & D2).
  split.
  - intros [<-|H]; [|auto]. destruct (in_dec Nat.eq_dec i t) as [H|H]; [auto|]. rewrite D2 by exact H. apply put_same.
  - intro H. rewrite D2 by tauto. apply put_other. tauto.
Qed.

Definition same (st : lab) (known : list Z) (st1 : lab) (known1 : list Z) (c : nat) : Prop :=
  l_type st1 c = l_type st c /\ is_known known1 g c = is_known known g c /\ l_coord st1 c = l_coord st c.
Definition single (d : nat) : Prop := length (l_atoms st0 d) = 1%nat /\ n_infinite (g_heap g d) = false.
Definition none_known (known : list Z) (d : nat) : Prop := forall c, leaf c -> ancestor g d c -> is_known known g c = false.
Definition bonded (t : ftype) : Prop := t = Covalent \/ t = CovalentMetallic.
Definition some_leaf (st : lab) (P : ftype -> Prop) (d : nat) : Prop := exists c, leaf c /\ ancestor g d c /\ P (l_type st c).

Definition step_effect (st : lab) (known : list Z) (st1 : lab) (known1 : list Z) (d c : nat) : Prop :=
  (single d -> none_known known d -> l_type st1 c = Shell /\ is_known known1 g c = true) /\
  (single d -> ~ none_known known d -> some_leaf st (fun t => atomic t = true) d -> ~ some_leaf st bonded d ->
     if big c then l_type st1 c = LonePair /\ is_known known1 g c = true else same st known st1 known1 c) /\
  (single d -> ~ none_known known d -> ~ some_leaf st (fun t => atomic t = true) d \/ some_leaf st bonded d -> same st known st1 known1 c) /\
  (~ single d -> none_known known d -> l_type st1 c = l_type st c /\ is_known known1 g c = true /\ l_coord st1 c = l_coord st c) /\
  (~ single d -> ~ none_known known d -> ~ some_leaf st bonded d -> same st known st1 known1 c) /\
  (~ single d -> ~ none_known known d -> some_leaf st bonded d ->
     if big c && near d c (view st c) then l_type st1 c = LonePair /\ is_known known1 g c = true
     else l_type st1 c = l_type st c /\ is_known known1 g c = false /\
       (l_coord st1 c = l_coord st c \/ l_coord st c = None /\ l_coord st1 c = Some (view st c))).

Lemma same_refl st known c : same st known st known c.
Proof. now repeat split. Qed.

Lemma leaves_spec fuel d deep : In d (g_nodes g) -> deep_children fuel g d = Done deep ->
  NoDup deep /\ incl deep (g_nodes g) /\
  forall c, leaf c -> In c deep <-> ancestor g d c.
Proof.
  intros Hd E. destruct (deep_children_any g d fuel deep W Hd E) as (N & I & _). split; [exact N|].
  split; [intros x Hx; now apply I in Hx|]. intros c (L & _). rewrite I. tauto.
Qed.

Lemma keys_known deep known c : incl deep (g_nodes g) -> In c (g_nodes g) ->
  is_known (known ++ map (fun c => n_key (g_heap g c)) deep) g c = true <-> is_known known g c = true \/ In c deep.
Proof.
  intros I Hc. rewrite !is_known_in, in_app_iff, in_map_iff. split.
  - intros [H|(x & E & H)]; [now left|]. right. assert (x = c); [|now subst]. apply (wf_key_inj g x c W); auto.
  - intros [H|H]; [now left|]. right. now exists c.
Qed.

Lemma lone_step_spec fuel st known d st1 known1 : reach st -> In d (g_nodes g) ->
  lone_step fuel w s (st, known) d = Done (st1, known1) ->
  reach st1 /\ incl known known1 /\
  forall c, leaf c ->
    (~ ancestor g d c \/ is_known known g c = true \/ l_atoms st0 d = [] -> same st known st1 known1 c) /\
    (ancestor g d c -> is_known known g c = false -> l_atoms st0 d <> [] -> step_effect st known st1 known1 d c).
Proof.
  intros (R1 & R2) Hd E. unfold lone_step in E. rewrite R1, R2 in E.
  destruct (Nat.eqb_spec (length (l_atoms st0 d)) 0) as [Z0|Z0].
  { injection E as <- <-. split; [now split|]. split; [apply incl_refl|]. intros c L. split; [intros _; apply same_refl|].
    intros _ _ X. destruct (l_atoms st0 d); [now destruct X|discriminate]. }
  destruct (deep_children fuel g d) as [deep| |] eqn:ED; cbn [obind] in E; try discriminate.
  destruct (leaves_spec fuel d deep Hd ED) as (ND & ID & LD).
  assert (NE : l_atoms st0 d <> []) by (intro X; rewrite X in Z0; now apply Z0).
  set (leaves := filter (fun c => negb (n_red (g_heap g c))) deep) in *.
  assert (IL : forall c, In c leaves <-> leaf c /\ ancestor g d c).
  { intro c. unfold leaves. rewrite filter_In, negb_true_iff. split.
    - intros (H & R). assert (L : leaf c) by (split; [now apply ID|unfold reducible; congruence]). split; [exact L|]. now apply LD.
    - intros (L & A). split; [now apply LD|]. now apply leaf_red. }
  assert (NN : forallb (fun c => negb (is_known known g c)) leaves = true <-> none_known known d).
  { rewrite forallb_forall. unfold none_known. split.
    - intros H c L A. apply negb_true_iff, H, IL. auto.
    - intros H c Hc. apply IL in Hc as (L & A). now rewrite (H c L A). }
  assert (SC : existsb (fun c => ftype_eqb (l_type st c) Covalent || ftype_eqb (l_type st c) CovalentMetallic) leaves = true <-> some_leaf st bonded d).
  { rewrite existsb_exists. unfold some_leaf, bonded. split; intros (c & H & T).
    - apply IL in H as (L & A). exists c. split; [exact L|]. split; [exact A|]. apply orb_prop in T as [T|T]; apply ftype_eqb_spec in T; auto.
    - destruct T as (A & T). exists c. split; [now apply IL|]. apply orb_true_iff. rewrite !ftype_eqb_spec. exact T. }
  assert (SA : existsb (fun c => atomic (l_type st c)) leaves = true <-> some_leaf st (fun t => atomic t = true) d).
  { rewrite existsb_exists. unfold some_leaf. split; intros (c & H & T).
    - apply IL in H as (L & A). now exists c.
    - destruct T as (A & T). exists c. split; [now apply IL|exact T]. }
  assert (SI : one_atom st d && negb (n_infinite (g_heap g d)) = true <-> single d).
  { unfold one_atom, single. rewrite R2, andb_true_iff, negb_true_iff, Nat.eqb_eq. reflexivity. }
  destruct (forallb (is_known known g) leaves) eqn:AL.
  { injection E as <- <-. split; [now split|]. split; [apply incl_refl|]. intros c L. split; [intros _; apply same_refl|].
    intros A K _. rewrite forallb_forall in AL. specialize (AL c (proj2 (IL c) (conj L A))). congruence. }
  assert (dec : forall (b : bool) P, (b = true <-> P) -> (b = true /\ P) \/ (b = false /\ ~ P)).
  { intros [|] P H; [left|right]; split; auto; [now apply H|]. intro p. apply H in p. discriminate. }
  assert (KN : forall c, leaf c -> is_known (known ++ map (fun c => n_key (g_heap g c)) deep) g c = true <-> is_known known g c = true \/ ancestor g d c).
  { intros c L. rewrite (keys_known deep known c ID (proj1 L)), (LD c L). reflexivity. }
  assert (KS : forall c, leaf c -> ~ ancestor g d c -> is_known (known ++ map (fun c => n_key (g_heap g c)) deep) g c = is_known known g c).
  { intros c L X. specialize (KN c L). destruct (is_known known g c); [now apply KN; left|].
    destruct (is_known (known ++ _) g c); [|reflexivity]. destruct (proj1 KN eq_refl) as [Y|Y]; [discriminate|contradiction]. }
  destruct (dec _ _ NN) as [(N0 & N1)|(N0 & N1)]; destruct (dec _ _ SI) as [(S0 & S1)|(S0 & S1)]; rewrite N0, S0 in E.
  - (* shells *)
    injection E as <- <-. destruct (shell_fold deep st) as (A1 & A2 & A3 & A6). set (stf := fold_left _ deep st) in *.
    split; [split; congruence|]. split; [intros k Hk; apply in_or_app; now left|]. intros c L.
    assert (NA : ~ ancestor g d c -> same st known stf (known ++ map (fun c => n_key (g_heap g c)) deep) c).
    { intro X. split; [apply (A6 c); now rewrite LD|]. split; [now apply KS|now rewrite A3]. }
    split.
    + intros [X|[X|X]]; [now apply NA| |contradiction]. apply NA. intro H. rewrite (N1 c L H) in X. discriminate.
    + intros A K _. repeat split; try contradiction; [apply (A6 c); now rewrite LD|]. intros. apply KN; auto.
  - (* nothing known in a shared domain *)
    injection E as <- <-. split; [now split|]. split; [intros k Hk; apply in_or_app; now left|]. intros c L.
    assert (NA : ~ ancestor g d c -> same st known st (known ++ map (fun c => n_key (g_heap g c)) deep) c).
    { intro X. split; [reflexivity|]. split; [now apply KS|reflexivity]. }
    split.
    + intros [X|[X|X]]; [now apply NA| |contradiction]. apply NA. intro H. rewrite (N1 c L H) in X. discriminate.
    + intros A K _. split; [contradiction|]. split; [contradiction|]. split; [contradiction|]. split; [|split; contradiction].
      intros _ _. split; [reflexivity|]. split; [apply KN; auto|reflexivity].
  - destruct (dec _ _ SA) as [(A0 & A1)|(A0 & A1)]; destruct (dec _ _ SC) as [(C0 & C1)|(C0 & C1)]; rewrite A0, C0 in E; cbn [andb negb] in E;
      try (injection E as <- <-; split; [now split|]; split; [apply incl_refl|]; intros c L; split; [intros _; apply same_refl|];
           intros A K _; split; [contradiction|]; split; [tauto|]; split; [intros; apply same_refl|]; split; [contradiction|]; split; contradiction).
    injection E as E. pose proof (ionic_fold deep st known (conj R1 R2) ND ID) as F. rewrite E in F. destruct F as (RR & IC & F).
    split; [exact RR|]. split; [exact IC|]. intros c L. destruct (F c L) as (F1 & F2). rewrite (LD c L) in F1, F2. split.
    + intros [X|[X|X]]; [| |contradiction]; apply F2; intros (Y1 & Y2 & Y3); [contradiction|congruence].
    + intros A K _. split; [contradiction|]. split; [|split; [tauto|split; [contradiction|split; contradiction]]].
      intros _ _ _ _. destruct (big c); [apply F1; auto|]. apply F2. now intros (_ & _ & X).
  - destruct (dec _ _ SC) as [(C0 & C1)|(C0 & C1)]; rewrite C0 in E; cbn [negb] in E.
    + injection E as E. pose proof (bonded_fold d deep st known (conj R1 R2) ND ID) as F. rewrite E in F. destruct F as (RR & IC & F).
      split; [exact RR|]. split; [exact IC|]. intros c L. destruct (F c L) as (F1 & F2). rewrite (LD c L) in F1, F2. split.
      * intros X. destruct F2 as (G1 & G2 & G3).
        { intros (Y1 & Y2 & Y3). destruct X as [X|[X|X]]; [contradiction|congruence|contradiction]. }
        split; [exact G1|]. split; [exact G2|]. destruct G3 as [G3|(G3 & G4 & G5)]; [exact G3|].
        destruct X as [X|[X|X]]; [|congruence|contradiction].
        apply (bonded_coord d c deep (st, known) (st1, known1) (fun H => X (proj1 (LD c L) H))) in E. exact E.
      * intros A K _. split; [contradiction|]. split; [contradiction|]. split; [contradiction|]. split; [contradiction|]. split; [contradiction|].
        intros _ _ _. destruct (big c) eqn:B, (near d c (view st c)) eqn:NR; cbn [andb]; try (now apply F1; auto);
          (destruct F2 as (G1 & G2 & G3); [intros (_ & _ & X & Y); congruence|]; split; [exact G1|]; split; [congruence|];
           destruct G3 as [G3|(G3 & G4 & G5)]; auto).
    + injection E as <- <-. split; [now split|]. split; [apply incl_refl|]. intros c L. split; [intros _; apply same_refl|].
      intros A K _. split; [contradiction|]. split; [contradiction|]. split; [contradiction|]. split; [contradiction|].
      split; [intros; apply same_refl|contradiction].
Qed.

Lemma some_dec (P : nat -> Prop) d : (forall c, {P c} + {~ P c}) ->
  {exists c, leaf c /\ ancestor g d c /\ P c} + {~ exists c, leaf c /\ ancestor g d c /\ P c}.
Proof.
  intro D. destruct (Exists_dec (fun c => leaf c /\ ancestor g d c /\ P c) (g_nodes g)) as [H|H].
  - intro c. destruct (in_dec Nat.eq_dec c (g_nodes g)) as [Hc|Hc]; [|right; intros (L & _); apply Hc; apply L].
    destruct (n_red (g_heap g c)) eqn:R; [right; intros ((_ & L) & _); now apply L|].
    destruct (ancestor_dec g d c W Hc) as [A|A]; [|right; tauto]. destruct (D c); [left|right; tauto].
    split; [split; [exact Hc|]; unfold reducible; congruence|auto].
  - left. apply Exists_exists in H as (c & _ & H). now exists c.
  - right. intros (c & X). apply H. apply Exists_exists. exists c. split; [apply X|exact X].
Qed.
Lemma none_dec known d : {none_known known d} + {~ none_known known d}.
Proof.
  destruct (some_dec (fun c => is_known known g c = true) d) as [H|H]; [intro c; apply Bool.bool_dec| |].
  - right. intro N. destruct H as (c & L & A & K). rewrite (N c L A) in K. discriminate.
  - left. intros c L A. destruct (is_known known g c) eqn:K; [|reflexivity]. exfalso. apply H. now exists c.
Qed.
Lemma bonded_dec t : {bonded t} + {~ bonded t}.
Proof. unfold bonded. destruct t; (left; tauto) || (right; intros [|]; discriminate). Qed.
Lemma bonded_some_dec st d : {some_leaf st bonded d} + {~ some_leaf st bonded d}.
Proof. apply (some_dec (fun c => bonded (l_type st c))). intro. apply bonded_dec. Qed.
Lemma atomic_some_dec st d : {some_leaf st (fun t => atomic t = true) d} + {~ some_leaf st (fun t => atomic t = true) d}.
Proof. apply (some_dec (fun c => atomic (l_type st c) = true)). intro. apply Bool.bool_dec. Qed.
Lemma single_dec d : {single d} + {~ single d}.
Proof.
  unfold single. destruct (Nat.eq_dec (length (l_atoms st0 d)) 1); [|right; tauto].
  destruct (n_infinite (g_heap g d)); [right; intros (_ & ?); discriminate|now left].
Qed.

Lemma start_spec c : leaf c -> is_known (start_known st0) g c = false <-> l_type st0 c = Unknown \/ l_type st0 c = ShallowCovalentMetallic.
Proof.
  intro L. unfold start_known. fold g. set (P := fun i => negb _).
  assert (K : is_known (map (fun i => n_key (g_heap g i)) (filter P (irreducible_nodes st0))) g c = true <-> P c = true).
  { rewrite is_known_in, in_map_iff. split.
    - intros (x & E & H). apply filter_In in H as (H & Px). apply in_irreducible in H as (H & _).
      assert (x = c); [|now subst]. apply (wf_key_inj g x c W); auto. apply L.
    - intro H. exists c. split; [reflexivity|]. apply filter_In. split; [|exact H]. now apply in_irreducible. }
  assert (PF : P c = false <-> l_type st0 c = Unknown \/ l_type st0 c = ShallowCovalentMetallic).
  { unfold P. rewrite negb_false_iff, orb_true_iff, !ftype_eqb_spec. reflexivity. }
  rewrite <- PF. destruct (is_known _ g c), (P c); intuition congruence.
Qed.

(** Why a feature is given a new type; [st] is any later state. *)
Definition reason (st : lab) (c : nat) (t : ftype) : Prop :=
  exists d, In d (g_nodes g) /\ reducible g d /\ ancestor g d c /\
  (t = Shell /\ single d /\ none_known (start_known st0) d \/
   t = LonePair /\ big c = true /\
     (single d /\ ~ some_leaf st0 bonded d /\ (exists x, leaf x /\ ancestor g d x /\ x <> c /\ atomic (l_type st x) = true) \/
      ~ single d /\ l_atoms st0 d <> [] /\ some_leaf st0 bonded d /\ near d c (view st0 c) = true)).
Record inv (st : lab) (known : list Z) : Prop := {
  inv_reach : reach st;
  inv_start : incl (start_known st0) known;
  inv_old : forall c, leaf c -> is_known (start_known st0) g c = true -> l_type st c = l_type st0 c;
  inv_unknown : forall c, leaf c -> is_known known g c = false ->
    l_type st c = l_type st0 c /\ (l_coord st c = l_coord st0 c \/ l_coord st0 c = None /\ l_coord st c = Some (view st0 c));
  inv_why : forall c, leaf c -> l_type st c = l_type st0 c \/
    is_known (start_known st0) g c = false /\ is_known known g c = true /\ reason st c (l_type st c) }.

Lemma known_mono known known1 c : incl known known1 -> is_known known g c = true -> is_known known1 g c = true.
Proof. rewrite !is_known_in. auto. Qed.
Lemma unknown_mono known known1 c : incl known known1 -> is_known known1 g c = false -> is_known known g c = false.
Proof. intros I H. destruct (is_known known g c) eqn:K; [|reflexivity]. rewrite (known_mono known known1 c I K) in H. discriminate. Qed.

Lemma inv_init : inv st0 (start_known st0).
Proof. split; auto; [now split|apply incl_refl]. Qed.
Lemma inv_view st known c : inv st known -> leaf c -> is_known known g c = false -> view st c = view st0 c.
Proof.
  intros I L K. destruct (inv_unknown _ _ I c L K) as (T & [C|(C0 & C)]); unfold view at 1; [unfold view|]; rewrite C; [now rewrite T|reflexivity].
Qed.
Lemma inv_bonded st known c : inv st known -> leaf c -> bonded (l_type st c) <-> bonded (l_type st0 c).
Proof.
  intros I L. destruct (inv_why _ _ I c L) as [->|(K & _ & (d & _ & _ & _ & R))]; [reflexivity|].
  apply (start_spec c L) in K. unfold bonded. split; intro B; exfalso.
  - destruct R as [(R & _)|(R & _)]; rewrite R in B; destruct B; discriminate.
  - destruct K as [K|K]; rewrite K in B; destruct B; discriminate.
Qed.
Lemma inv_some_bonded st known d : inv st known -> some_leaf st bonded d <-> some_leaf st0 bonded d.
Proof. intro I. split; intros (c & L & A & B); exists c; (split; [exact L|]; split; [exact A|]); now apply (inv_bonded st known c I L). Qed.
Lemma inv_atomic st known c : inv st known -> leaf c -> atomic (l_type st c) = true -> is_known known g c = true.
Proof.
  intros I L A. destruct (inv_why _ _ I c L) as [E|(_ & K & _)]; [|exact K]. apply (known_mono _ _ c (inv_start _ _ I)).
  destruct (is_known (start_known st0) g c) eqn:K; [reflexivity|]. apply (start_spec c L) in K. rewrite E in A. destruct K as [K|K]; rewrite K in A; discriminate.
Qed.

Lemma step_known fuel st known d st1 known1 c : reach st -> In d (g_nodes g) -> lone_step fuel w s (st, known) d = Done (st1, known1) ->
  leaf c -> is_known known g c = true -> l_type st1 c = l_type st c /\ is_known known1 g c = true.
Proof.
  intros R Hd E L K. destruct (lone_step_spec _ _ _ _ _ _ R Hd E) as (_ & _ & F). destruct (F c L) as (F1 & _).
  destruct F1 as (T & K1 & _); [auto|]. split; congruence.
Qed.
Lemma reason_mono st st1 c t : (forall x, leaf x -> atomic (l_type st x) = true -> l_type st1 x = l_type st x) -> reason st c t -> reason st1 c t.
Proof.
  intros M (d & Hd & Rd & A & H). exists d. split; [exact Hd|]. split; [exact Rd|]. split; [exact A|].
  destruct H as [H|(T & B & [(S & N & (x & L & Ax & NE & X))|H])]; [now left|right|right].
  - split; [exact T|]. split; [exact B|]. left. split; [exact S|]. split; [exact N|]. exists x. split; [exact L|]. split; [exact Ax|].
    split; [exact NE|]. now rewrite (M x L X).
  - split; [exact T|]. split; [exact B|]. now right.
Qed.

Lemma inv_step fuel st known d st1 known1 : inv st known -> In d (g_nodes g) -> reducible g d ->
  lone_step fuel w s (st, known) d = Done (st1, known1) -> inv st1 known1.
Proof.
  intros I Hd Rd E. pose proof (inv_reach _ _ I) as RE. destruct (lone_step_spec _ _ _ _ _ _ RE Hd E) as (R1 & IC & F).
  assert (KN : forall c, leaf c -> is_known known g c = true -> l_type st1 c = l_type st c /\ is_known known1 g c = true).
  { intros c L K. now apply (step_known fuel st known d). }
  assert (M : forall x, leaf x -> atomic (l_type st x) = true -> l_type st1 x = l_type st x).
  { intros x L X. apply KN; [exact L|]. now apply (inv_atomic st known). }
  (* what happens to one unknown leaf *)
  assert (U : forall c, leaf c -> is_known known g c = false ->
     l_type st1 c = l_type st c /\ (is_known known1 g c = false -> l_coord st1 c = l_coord st c \/ l_coord st c = None /\ l_coord st1 c = Some (view st c)) \/
     is_known known1 g c = true /\ reason st1 c (l_type st1 c)).
  { intros c L K. destruct (F c L) as (F1 & F2).
    destruct (ancestor_dec g d c W (proj1 L)) as [A|A].
    2:{ left. destruct F1 as (T & _ & C); auto. }
    destruct (list_eq_dec Z.eq_dec (l_atoms st0 d) []) as [Z0|Z0].
    { left. destruct F1 as (T & _ & C); auto. }
    destruct (F2 A K Z0) as (E1 & E2 & E3 & E4 & E5 & E6).
    destruct (single_dec d) as [S|S]; destruct (none_dec known d) as [N|N].
    - right. destruct (E1 S N) as (T & K1). split; [exact K1|]. rewrite T. exists d. do 3 (split; [assumption|]). left.
      split; [reflexivity|]. split; [exact S|]. intros x Lx Ax. apply (unknown_mono _ known); [apply (inv_start _ _ I)|]. now apply N.
    - destruct (bonded_some_dec st d) as [B|B]; [left; destruct (E3 S N (or_intror B)) as (T & _ & C); auto|].
      destruct (atomic_some_dec st d) as [AT|AT]; [|left; destruct (E3 S N (or_introl AT)) as (T & _ & C); auto].
      specialize (E2 S N AT B). destruct (big c) eqn:BC; [|left; destruct E2 as (T & _ & C); auto].
      right. destruct E2 as (T & K1). split; [exact K1|]. apply (reason_mono st); [exact M|]. rewrite T. exists d. do 3 (split; [assumption|]). right.
      split; [reflexivity|]. split; [exact BC|]. left. split; [exact S|]. split; [now rewrite <- (inv_some_bonded st known d I)|].
      destruct AT as (x & Lx & Ax & Tx). exists x. do 2 (split; [assumption|]). split; [|exact Tx]. intros ->.
      pose proof (inv_atomic st known c I L Tx). congruence.
    - left. destruct (E4 S N) as (T & _ & C); auto.
    - destruct (bonded_some_dec st d) as [B|B]; [|left; destruct (E5 S N B) as (T & _ & C); auto].
      specialize (E6 S N B). destruct (big c && near d c (view st c))%bool eqn:BC; [|left; destruct E6 as (T & _ & C); auto].
      apply andb_prop in BC as (B1 & B2). right. destruct E6 as (T & K1). split; [exact K1|]. rewrite T. exists d. do 3 (split; [assumption|]). right.
      split; [reflexivity|]. split; [exact B1|]. right. split; [exact S|]. split; [exact Z0|].
      split; [now rewrite <- (inv_some_bonded st known d I)|]. now rewrite <- (inv_view st known c I L K). }
  constructor.
  - exact R1.
  - intros k Hk. apply IC. now apply (inv_start _ _ I).
  - intros c L K. rewrite (proj1 (KN c L (known_mono _ _ c (inv_start _ _ I) K))). now apply (inv_old _ _ I).
  - intros c L K1. pose proof (unknown_mono _ _ c IC K1) as K. destruct (inv_unknown _ _ I c L K) as (T & C).
    destruct (U c L K) as [(T1 & C1)|(X & _)]; [|congruence]. split; [congruence|]. specialize (C1 K1).
    destruct C1 as [C1|(C1 & C2)]; [rewrite C1; exact C|]. rewrite (inv_view st known c I L K) in C2. right. split; [|exact C2].
    destruct C as [C|(C & _)]; congruence.
  - intros c L. destruct (is_known known g c) eqn:K.
    + destruct (KN c L K) as (T & K1). rewrite T. destruct (inv_why _ _ I c L) as [W1|(W1 & W2 & W3)]; [now left|].
      right. split; [exact W1|]. split; [exact K1|]. now apply (reason_mono st).
    + destruct (U c L K) as [(T1 & _)|(K1 & R)].
      * left. rewrite T1. apply (inv_unknown _ _ I c L K).
      * right. split; [apply (unknown_mono _ known); [apply (inv_start _ _ I)|exact K]|]. auto.
Qed.

Lemma inv_steps fuel : forall l st known st1 known1, inv st known -> (forall d, In d l -> In d (g_nodes g) /\ reducible g d) ->
  lone_steps fuel w s (st, known) l = Done (st1, known1) -> inv st1 known1 /\ incl known known1 /\
  forall c, leaf c ->
    (is_known known g c = true -> l_type st1 c = l_type st c) /\
    ((forall d, In d l -> ancestor g d c -> l_atoms st0 d = []) -> l_type st1 c = l_type st c /\ is_known known1 g c = is_known known g c).
Proof.
  induction l as [|d t IH]; intros st known st1 known1 I H E; cbn [lone_steps] in E.
  { injection E as <- <-. split; [exact I|]. split; [apply incl_refl|]. auto. }
  destruct (lone_step fuel w s (st, known) d) as [[sta ka]| |] eqn:EA; cbn [obind] in E; try discriminate.
  destruct (H d (or_introl eq_refl)) as (Hd & Rd). pose proof (inv_step fuel st known d sta ka I Hd Rd EA) as Ia.
  destruct (IH sta ka st1 known1 Ia (fun x Hx => H x (or_intror Hx)) E) as (J & IC & F).
  destruct (lone_step_spec _ _ _ _ _ _ (inv_reach _ _ I) Hd EA) as (_ & ICa & Fa).
  split; [exact J|]. split; [intros k Hk; auto|]. intros c L. destruct (F c L) as (F1 & F2). destruct (Fa c L) as (Fa1 & _). split.
  - intro K. destruct (step_known fuel st known d sta ka c (inv_reach _ _ I) Hd EA L K) as (T & Ka). rewrite (F1 Ka). exact T.
  - intro N. destruct F2 as (T & K); [intros x Hx; apply N; now right|]. rewrite T, K.
    destruct Fa1 as (Ta & Ka & _); [|auto]. destruct (ancestor_dec g d c W (proj1 L)) as [A|A]; [|now left].
    right. right. apply N; [now left|exact A].
Qed.
Lemma lone_steps_app fuel : forall l1 l2 r, lone_steps fuel w s r (l1 ++ l2) = obind (lone_steps fuel w s r l1) (fun r1 => lone_steps fuel w s r1 l2).
Proof.
  induction l1 as [|d t IH]; intros l2 r; cbn [app lone_steps obind]; [reflexivity|].
  destruct (lone_step fuel w s r d); cbn [obind]; [apply IH|reflexivity|reflexivity].
Qed.

(** Processing order: inner domains first. *)
Lemma sorted_reducible_sorted argsort : sorts argsort ->
  StronglySorted (fun a b => (n_min (g_heap g a) <= n_min (g_heap g b))%Q) (sorted_reducible argsort g).
Proof.
  intros S. unfold sorted_reducible. set (l := filter _ (g_nodes g)). destruct (S (map (fun i => n_min (g_heap g i)) l)) as (P & SS).
  rewrite map_length in P. assert (B : forall j, In j (argsort (map (fun i => n_min (g_heap g i)) l)) -> (j < length l)%nat).
  { intros j Hj. apply (Permutation_in _ P) in Hj. apply in_seq in Hj. lia. }
  revert SS B. generalize (argsort (map (fun i => n_min (g_heap g i)) l)) as q. induction q as [|j t IH]; intros SS B; cbn [map]; [constructor|].
  assert (V : forall k, (k < length l)%nat -> nth k (map (fun i => n_min (g_heap g i)) l) 0%Q = n_min (g_heap g (nth k l 0%nat))).
  { intros k Hk. rewrite (nth_indep _ 0%Q (n_min (g_heap g 0%nat))) by now rewrite map_length. now rewrite (map_nth (fun i => n_min (g_heap g i))). }
  cbn [map] in SS. inversion SS as [|x y S1 S2]; subst. constructor.
  - apply IH; [exact S1|]. intros k Hk. apply B. now right.
  - apply Forall_forall. intros x Hx. apply in_map_iff in Hx as (k & <- & Hk). rewrite Forall_forall in S2.
    specialize (S2 (nth k (map (fun i => n_min (g_heap g i)) l) 0%Q)). rewrite !V in S2 by (apply B; cbn; auto). apply S2.
    apply in_map_iff. exists k. split; [|exact Hk]. apply V. apply B. now right.
Qed.
Lemma sorted_app {A} (R : A -> A -> Prop) l1 x l2 : StronglySorted R (l1 ++ x :: l2) -> forall y, In y l2 -> R x y.
Proof.
  induction l1 as [|a t IH]; cbn [app]; intros S y Hy; inversion S; subst; [|now apply IH]. rewrite Forall_forall in *. auto.
Qed.

Definition has_atoms (d : nat) : Prop := l_atoms st0 d <> [].
Definition outer_lower : Prop := forall a d, In d (g_nodes g) -> reducible g d -> ancestor g a d -> (n_min (g_heap g a) < n_min (g_heap g d))%Q.

Lemma lone_split fuel argsort st' d : sorts argsort -> outer_lower -> In d (g_nodes g) -> reducible g d ->
  mark_lonepairs fuel argsort w s st0 = Done st' ->
  exists st known sta ka, inv st known /\ lone_step fuel w s (st, known) d = Done (sta, ka) /\
    (forall c, leaf c -> innermost g has_atoms c d -> l_type st c = l_type st0 c /\ is_known known g c = is_known (start_known st0) g c) /\
    (forall c, leaf c -> is_known ka g c = true -> l_type st' c = l_type sta c).
Proof.
  intros S OL Hd Rd E. unfold mark_lonepairs in E. fold g in E.
  destruct (lone_steps fuel w s (st0, start_known st0) (rev (sorted_reducible argsort g))) as [[stf kf]| |] eqn:EF; cbn [obind fst] in E; try discriminate.
  injection E as <-. destruct (sorted_reducible_ok argsort g S (wf_nodup g W)) as (N & I).
  assert (Hin : In d (rev (sorted_reducible argsort g))) by (rewrite <- in_rev; now apply I).
  apply in_split in Hin as (l1 & l2 & EL).
  assert (RR : forall x, In x (l1 ++ d :: l2) -> In x (g_nodes g) /\ reducible g x).
  { intros x Hx. rewrite <- EL, <- in_rev in Hx. now apply I. }
  assert (BEF : forall x, In x l1 -> (n_min (g_heap g d) <= n_min (g_heap g x))%Q).
  { intros x Hx. pose proof (sorted_reducible_sorted argsort S) as SS. rewrite <- (rev_involutive (sorted_reducible argsort g)), EL in SS.
    rewrite rev_app_distr in SS. cbn [rev] in SS. rewrite <- app_assoc in SS. cbn [app] in SS.
    apply (sorted_app _ _ _ _ SS). now rewrite <- in_rev. }
  rewrite EL, lone_steps_app in EF. destruct (lone_steps fuel w s (st0, start_known st0) l1) as [[st known]| |] eqn:E1; cbn [obind] in EF; try discriminate.
  cbn [lone_steps] in EF. destruct (lone_step fuel w s (st, known) d) as [[sta ka]| |] eqn:E2; cbn [obind] in EF; try discriminate.
  exists st, known, sta, ka.
  destruct (inv_steps fuel l1 st0 (start_known st0) st known inv_init (fun x Hx => RR x (in_or_app _ _ _ (or_introl Hx))) E1) as (I1 & _ & F1).
  pose proof (inv_step fuel st known d sta ka I1 Hd Rd E2) as I2.
  destruct (inv_steps fuel l2 sta ka stf kf I2 (fun x Hx => RR x (in_or_app l1 (d :: l2) x (or_intror (in_cons d x l2 Hx)))) EF) as (_ & _ & F2).
  split; [exact I1|]. split; [exact E2|]. split.
  - intros c L (A & P & U). apply (proj2 (F1 c L)). intros x Hx Ax. destruct (l_atoms st0 x) as [|a q] eqn:AX; [reflexivity|exfalso].
    assert (HX : has_atoms x) by (unfold has_atoms; congruence).
    destruct (U x Ax HX) as [->|B].
    + apply NoDup_rev in N. rewrite EL in N. apply NoDup_remove_2 in N. apply N. apply in_or_app. now left.
    + specialize (OL x d Hd Rd B). specialize (BEF x Hx). apply Qlt_not_le in OL. contradiction.
  - intros c L K. now apply (proj1 (F2 c L)).
Qed.

Definition unset (t : ftype) : Prop := t = Unknown \/ t = ShallowCovalentMetallic.
(** All leaves of [d] are unset and have [d] as their innermost domain with atoms. *)
Definition untouched (d : nat) : Prop := forall x, leaf x -> ancestor g d x -> unset (l_type st0 x) /\ innermost g has_atoms x d.

Lemma lone_complete fuel argsort st' d c : sorts argsort -> outer_lower ->
  mark_lonepairs fuel argsort w s st0 = Done st' ->
  leaf c -> unset (l_type st0 c) -> innermost g has_atoms c d ->
  (single d -> untouched d -> l_type st' c = Shell) /\
  (single d -> some_leaf st0 (fun t => atomic t = true) d -> ~ some_leaf st0 bonded d -> big c = true -> l_type st' c = LonePair) /\
  (~ single d -> some_leaf st0 bonded d -> near d c (view st0 c) = true -> big c = true -> l_type st' c = LonePair) /\
  (~ single d -> untouched d -> l_type st' c = l_type st0 c).
Proof.
  intros S OL E L U IN. pose proof IN as (A & P & _).
  destruct (ancestor_incl g d c W (proj1 L) A) as (Hd & Rd & _).
  destruct (lone_split fuel argsort st' d S OL Hd Rd E) as (st & known & sta & ka & I & ES & B & F).
  destruct (lone_step_spec _ _ _ _ _ _ (inv_reach _ _ I) Hd ES) as (_ & _ & FF). destruct (FF c L) as (_ & F2).
  destruct (B c L IN) as (T & K). apply (start_spec c L) in U. rewrite U in K. destruct (F2 A K P) as (E1 & E2 & E3 & E4 & E5 & E6).
  assert (NU : untouched d -> none_known known d).
  { intros X x Lx Ax. destruct (X x Lx Ax) as (Ux & Ix). destruct (B x Lx Ix) as (_ & ->). now apply start_spec. }
  assert (SK : forall Q : ftype -> Prop, (forall t, Q t -> ~ unset t) -> some_leaf st0 Q d -> ~ none_known known d /\ some_leaf st Q d).
  { intros Q HQ (x & Lx & Ax & Qx). assert (KX : is_known (start_known st0) g x = true).
    { destruct (is_known (start_known st0) g x) eqn:KX; [reflexivity|]. apply (start_spec x Lx) in KX. exfalso. now apply (HQ _ Qx). }
    split.
    - intro N. pose proof (known_mono _ _ x (inv_start _ _ I) KX) as KX'. rewrite (N x Lx Ax) in KX'. discriminate.
    - exists x. split; [exact Lx|]. split; [exact Ax|]. now rewrite (inv_old _ _ I x Lx KX). }
  split; [|split; [|split]].
  - intros SI X. destruct (E1 SI (NU X)) as (T1 & K1). now rewrite (F c L K1).
  - intros SI AT NB BG. destruct (SK (fun t => atomic t = true) ltac:(intros t Q [->| ->]; cbn in Q; discriminate) AT) as (NN & AT').
    specialize (E2 SI NN AT'). rewrite (inv_some_bonded st known d I) in E2. specialize (E2 NB). rewrite BG in E2.
    destruct E2 as (T1 & K1). now rewrite (F c L K1).
  - intros SI BO NR BG. destruct (SK bonded ltac:(intros t [->| ->] [|]; discriminate) BO) as (NN & BO').
    specialize (E6 SI NN BO'). rewrite (inv_view st known c I L K), NR, BG in E6. destruct E6 as (T1 & K1). now rewrite (F c L K1).
  - intros SI X. destruct (E4 SI (NU X)) as (T1 & K1 & _). rewrite (F c L K1). congruence.
Qed.

Lemma lone_sound fuel argsort st' : sorts argsort -> mark_lonepairs fuel argsort w s st0 = Done st' ->
  l_g st' = g /\ l_atoms st' = l_atoms st0 /\
  forall c, leaf c -> l_type st' c = l_type st0 c \/ unset (l_type st0 c) /\ reason st' c (l_type st' c).
Proof.
  intros S E. unfold mark_lonepairs in E. fold g in E.
  destruct (lone_steps fuel w s (st0, start_known st0) (rev (sorted_reducible argsort g))) as [[stf kf]| |] eqn:EF; cbn [obind fst] in E; try discriminate.
  injection E as <-. destruct (sorted_reducible_ok argsort g S (wf_nodup g W)) as (N & I).
  destruct (inv_steps fuel (rev (sorted_reducible argsort g)) st0 (start_known st0) stf kf inv_init ltac:(intros x Hx; rewrite <- in_rev in Hx; now apply I) EF) as (J & _).
  destruct (inv_reach _ _ J) as (R1 & R2). split; [exact R1|]. split; [exact R2|]. intros c L.
  destruct (inv_why _ _ J c L) as [X|(X & _ & Y)]; [now left|right]. split; [now apply start_spec|exact Y].
Qed.

Lemma lone_done fuel argsort : sorts argsort -> (length (g_nodes g) < fuel)%nat -> exists st', mark_lonepairs fuel argsort w s st0 = Done st'.
Proof.
  intros S FU. destruct (sorted_reducible_ok argsort g S (wf_nodup g W)) as (N & I).
  assert (X : forall l st known, inv st known -> (forall d, In d l -> In d (g_nodes g) /\ reducible g d) ->
     exists r, lone_steps fuel w s (st, known) l = Done r).
  { induction l as [|d t IH]; intros st known J H; [eexists; reflexivity|]. cbn [lone_steps].
    destruct (H d (or_introl eq_refl)) as (Hd & Rd).
    assert (D : exists r, lone_step fuel w s (st, known) d = Done r).
    { unfold lone_step. destruct (inv_reach _ _ J) as (-> & ->). destruct (Nat.eqb _ 0); [eexists; reflexivity|].
      destruct (deep_children_spec g d fuel W Hd (Nat.lt_le_incl _ _ FU)) as (deep & -> & _). cbn [obind].
      destruct (forallb _ _); [eexists; reflexivity|]. destruct (one_atom st d && _)%bool; destruct (forallb _ _); try (eexists; reflexivity).
      - destruct (_ && _)%bool; eexists; reflexivity.
      - destruct (negb _); eexists; reflexivity. }
    destruct D as ([sta ka] & D). rewrite D. cbn [obind]. apply IH; [|intros x Hx; apply H; now right]. now apply (inv_step fuel st known d). }
  destruct (X (rev (sorted_reducible argsort g)) st0 (start_known st0) inv_init) as (r & E).
  { intros d Hd. rewrite <- in_rev in Hd. now apply I. }
  exists (fst r). unfold mark_lonepairs. fold g. rewrite E. reflexivity.
Qed.
End Lone.
