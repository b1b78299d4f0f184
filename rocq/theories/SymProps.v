(** C268-C271, C274: the stored symmetry of a structure. *)
From Verif Require Import Base SymModel.

Section Spec.
Context {Site Kwargs : Type}.
(** The site objects after a history. *)
Definition refs_after (s : list nat) (h : list (op Site Kwargs)) : list nat :=
  fold_left (fun s p => match p with ChangeSites s' => s' | _ => s end) h s.
Definition assigns (h : list (op Site Kwargs)) : Prop := exists k, In (SetKwargs k) h.
Definition edits (h : list (op Site Kwargs)) : Prop := exists i x, In (EditSite i x) h.
Definition changes (h : list (op Site Kwargs)) : Prop := exists s, In (ChangeSites s) h.
(** Once the data have been read, the analyzer is not the first thing read after a change of the sites. *)
Definition data_first (h : list (op Site Kwargs)) : Prop :=
  forall h1 h2 h3 h4 s, h = h1 ++ [ReadData] ++ h2 ++ [ChangeSites s] ++ h3 ++ [ReadAnalyzer] ++ h4 -> In ReadData h3.
End Spec.

Section Proofs.
Context {Site Kwargs Analyzer Data : Type}.
Variable same : list Site -> list Site -> bool.
Variable analyze : list Site -> Kwargs -> option Analyzer.
Variable dataset : Analyzer -> Data.
Notation run := (run same analyze dataset).
Notation step := (step same analyze dataset).
Notation spacegroup_analyzer := (spacegroup_analyzer same analyze).
Notation symmetry_data := (symmetry_data same analyze dataset).

Lemma analyzer_keeps (o : structure Site Kwargs Analyzer Data) : (refs (snd (spacegroup_analyzer o)) = refs o /\ heap (snd (spacegroup_analyzer o)) = heap o) /\ kwargs (snd (spacegroup_analyzer o)) = kwargs o /\
  stored_data (snd (spacegroup_analyzer o)) = stored_data o.
Proof. unfold SymModel.spacegroup_analyzer. destruct (_ || _); [destruct (analyze _ _)|]; cbn; auto. Qed.
Lemma data_keeps (o : structure Site Kwargs Analyzer Data) : (refs (snd (symmetry_data o)) = refs o /\ heap (snd (symmetry_data o)) = heap o) /\ kwargs (snd (symmetry_data o)) = kwargs o.
Proof.
  unfold SymModel.symmetry_data. destruct (_ || _); [|auto]. pose proof (analyzer_keeps o) as (A & B & _).
  destruct (spacegroup_analyzer o) as [[a|] o1]; cbn in *; auto.
Qed.
Lemma refs_step o p : refs (step o p) = refs_after (refs o) [p].
Proof. destruct p; cbn; auto; [apply analyzer_keeps|apply data_keeps]. Qed.
Lemma refs_run h : forall o, refs (run h o) = refs_after (refs o) h.
Proof. induction h as [|p h IH]; intro o; [reflexivity|]. cbn [SymModel.run fold_left]. change (fold_left step h (step o p)) with (run h (step o p)). rewrite IH, refs_step. reflexivity. Qed.
Lemma heap_run h : forall o, ~ edits h -> heap (run h o) = heap o.
Proof.
  induction h as [|p h IH]; intros o N; [reflexivity|]. cbn [SymModel.run fold_left]. change (fold_left step h (step o p)) with (run h (step o p)).
  rewrite IH by (intros (i & x & H); apply N; exists i, x; now right).
  destruct p as [s|i x|k| |]; cbn [SymModel.step]; auto; [|apply analyzer_keeps|apply data_keeps]. destruct N. exists i, x. now left.
Qed.
Lemma run_app h1 h2 o : run (h1 ++ h2) o = run h2 (run h1 o).
Proof. apply fold_left_app. Qed.

Variable k0 : Kwargs.
Hypothesis REFL : forall s, same s s = true.
Hypothesis COMPAT : forall s s', same s s' = true -> analyze s k0 = analyze s' k0.
Hypothesis TOTAL : forall s, analyze s k0 <> None.

(** The analyzer belongs to the sites last saved. *)
Definition coherent (o : structure Site Kwargs Analyzer Data) : Prop :=
  kwargs o = k0 /\
  ((stored_analyzer o = None /\ stored_data o = None) \/
   exists l a, last_save o = Some l /\ stored_analyzer o = Some a /\ analyze (map (heap o) l) k0 = Some a).

Lemma analyzer_fresh o : coherent o ->
  exists a, fst (spacegroup_analyzer o) = Some a /\ analyze (sites o) k0 = Some a /\
    let o1 := snd (spacegroup_analyzer o) in
    coherent o1 /\ stored_analyzer o1 = Some a /\ exists l, last_save o1 = Some l /\ same (map (heap o) l) (sites o) = true.
Proof.
  intros (K & C). unfold SymModel.spacegroup_analyzer, outdated. destruct C as [[A D]|(l & a & L & A & E)].
  - rewrite A. cbn [orb]. rewrite K. destruct (analyze (sites o) k0) as [a|] eqn:E; [|now destruct (TOTAL _ E)].
    exists a. cbn. repeat split; auto; [|eauto]. right. exists (refs o), a. auto.
  - rewrite A, L. cbn [orb]. destruct (same (map (heap o) l) (sites o)) eqn:S; cbn [negb].
    + exists a. cbn. rewrite (COMPAT _ _ S) in E. repeat split; eauto. right. exists l, a. rewrite (COMPAT _ _ S). auto.
    + rewrite K. destruct (analyze (sites o) k0) as [a'|] eqn:E'; [|now destruct (TOTAL _ E')].
      exists a'. cbn. repeat split; auto; [|eauto]. right. exists (refs o), a'. auto.
Qed.
Lemma coherent_step o p : coherent o -> (forall k, p <> SetKwargs k) -> (forall i x, p <> EditSite i x) -> coherent (step o p).
Proof.
  intros C N M. destruct p as [s|i x|k| |]; cbn [SymModel.step].
  - exact C.
  - now destruct (M i x).
  - now destruct (N k).
  - destruct (analyzer_fresh o C) as (a & _ & _ & H). apply H.
  - unfold SymModel.symmetry_data. destruct (_ || _); [|exact C]. destruct (analyzer_fresh o C) as (a & F & E & (K & C1) & A & l & L & S).
    destruct (spacegroup_analyzer o) as [r o1]. cbn in *. subst r. split; [exact K|]. right. cbn. destruct C1 as [[C1 _]|C1]; [congruence|exact C1].
Qed.
Lemma coherent_run h : forall o, coherent o -> ~ assigns h -> ~ edits h -> coherent (run h o).
Proof.
  induction h as [|p h IH]; intros o C N M; [exact C|]. apply IH.
  - apply coherent_step; [exact C| |]; [intros k ->; apply N; exists k; now left|intros i x ->; apply M; exists i, x; now left].
  - intros (k & H). apply N. exists k. now right.
  - intros (i & x & H). apply M. exists i, x. now right.
Qed.
Lemma coherent_new hp s : coherent (new_structure hp s k0).
Proof. split; [reflexivity|]. now left. Qed.

(** ** Data *)
(** What is known about the stored data after a history. *)
Definition data_known (h : list (op Site Kwargs)) (o : structure Site Kwargs Analyzer Data) : Prop :=
  (~ In ReadData h -> stored_data o = None) /\
  (In ReadData h -> exists a, stored_analyzer o = Some a /\ stored_data o = Some (dataset a)) /\
  (forall h1 h2, h = h1 ++ [ReadData] ++ h2 -> ~ changes h2 -> exists l, last_save o = Some l /\ same (map (heap o) l) (sites o) = true).

Lemma data_fresh h o : coherent o -> data_known h o ->
  exists a, fst (symmetry_data o) = Some (dataset a) /\ analyze (sites o) k0 = Some a /\
    stored_analyzer (snd (symmetry_data o)) = Some a /\ stored_data (snd (symmetry_data o)) = Some (dataset a) /\
    exists l, last_save (snd (symmetry_data o)) = Some l /\ same (map (heap o) l) (sites o) = true.
Proof.
  intros C (D0 & D1 & _). unfold SymModel.symmetry_data. destruct (stored_data o) as [d|] eqn:D; cbn [orb].
  - assert (R : In ReadData h).
    { destruct (existsb (fun p => match p with ReadData => true | _ => false end) h) eqn:E.
      - apply existsb_exists in E as (p & Hp & E). destruct p; try discriminate. exact Hp.
      - assert (N : ~ In ReadData h). { intro H. assert (existsb (fun p : op Site Kwargs => match p with ReadData => true | _ => false end) h = true) by (apply existsb_exists; exists ReadData; auto). congruence. }
        specialize (D0 N). discriminate. }
    destruct (D1 R) as (a & A & E). injection E as ->. destruct (outdated same o) eqn:O.
    + destruct (analyzer_fresh o C) as (a' & F & E' & _ & A' & l & L & S). destruct (spacegroup_analyzer o) as [r o1]. cbn in *. subst r.
      exists a'. repeat split; eauto.
    + exists a. unfold outdated in O. destruct (last_save o) as [l|] eqn:L; [|discriminate]. apply negb_false_iff in O.
      cbn. repeat split; eauto. destruct C as (_ & [[C _]|(l' & a' & L' & A' & E')]); [congruence|].
      assert (l' = l) by congruence. assert (a' = a) by congruence. subst. now rewrite <- (COMPAT _ _ O).
  - destruct (analyzer_fresh o C) as (a' & F & E' & _ & A' & l & L & S). destruct (spacegroup_analyzer o) as [r o1]. cbn in *. subst r.
    exists a'. repeat split; eauto.
Qed.

Lemma last_app {A} (h1 h2 h : list A) p x : h ++ [p] = h1 ++ [x] ++ h2 ->
  (h2 = [] /\ p = x /\ h = h1) \/ exists h2', h2 = h2' ++ [p] /\ h = h1 ++ [x] ++ h2'.
Proof.
  intro E. destruct h2 as [|y h2] using rev_ind.
  - left. cbn in E. apply app_inj_tail in E as [-> ->]. auto.
  - right. exists h2. cbn in E. rewrite app_comm_cons, app_assoc in E. apply app_inj_tail in E as [-> ->]. auto.
Qed.
Lemma no_changes_cons (p : op Site Kwargs) h : ~ changes (h ++ [p]) -> ~ changes h /\ forall s, p <> ChangeSites s.
Proof.
  intro N. split.
  - intros (s & H). apply N. exists s. apply in_app_iff. auto.
  - intros s ->. apply N. exists s. apply in_app_iff. right. now left.
Qed.

Lemma data_known_run hp s h : ~ assigns h -> ~ edits h -> data_first h -> data_known h (run h (new_structure hp s k0)).
Proof.
  induction h as [|p h IH] using rev_ind; intros N M F.
  { split; [reflexivity|]. split; [intros []|]. intros h1 h2 E. destruct h1; discriminate. }
  assert (N' : ~ assigns h) by (intros (k & H); apply N; exists k; apply in_app_iff; auto).
  assert (M' : ~ edits h) by (intros (i & x & H); apply M; exists i, x; apply in_app_iff; auto).
  assert (F' : data_first h).
  { intros h1 h2 h3 h4 s' ->. apply (F h1 h2 h3 (h4 ++ [p]) s'). rewrite <- !app_assoc. reflexivity. }
  specialize (IH N' M' F'). pose proof (coherent_run h _ (coherent_new hp s) N' M') as C.
  rewrite run_app. cbn [SymModel.run fold_left]. set (o := run h (new_structure hp s k0)) in *. change (fold_left step h (new_structure hp s k0)) with o in *.
  destruct p as [s'|i x|k| |]; cbn [SymModel.step].
  - destruct IH as (D0 & D1 & D2). split; [intro H; apply D0; intro; apply H; apply in_app_iff; auto|].
    split; [intro H; apply in_app_iff in H as [H|[H|[]]]; [now apply D1|discriminate]|].
    intros h1 h2 E NC. apply last_app in E as [(_ & E & _)|(h2' & -> & _)]; [discriminate|].
    destruct (proj2 (no_changes_cons _ _ NC) s' eq_refl).
  - destruct M. exists i, x. apply in_app_iff. right. now left.
  - destruct N. exists k. apply in_app_iff. right. now left.
  - destruct (analyzer_fresh o C) as (a & FF & E & C1 & A & l & L & S).
    pose proof (analyzer_keeps o) as (K1 & _ & K3).
    destruct IH as (D0 & D1 & D2). split; [rewrite K3; intro H; apply D0; intro; apply H; apply in_app_iff; auto|]. split.
    + intro H. apply in_app_iff in H as [H|[H|[]]]; [|discriminate].
      (* the last reading of the data *)
      assert (NCH : exists h1 h2, h = h1 ++ [ReadData] ++ h2 /\ ~ In ReadData h2).
      { clear - H. induction h as [|p h IHh]; [destruct H|].
        destruct (existsb (fun p => match p with ReadData => true | _ => false end) h) eqn:EX.
        - apply existsb_exists in EX as (q & Hq & Eq). destruct q; try discriminate.
          destruct (IHh Hq) as (h1 & h2 & -> & NI). exists (p :: h1), h2. auto.
        - assert (NI : ~ In ReadData h). { intro HI. assert (existsb (fun p : op Site Kwargs => match p with ReadData => true | _ => false end) h = true) by (apply existsb_exists; exists ReadData; auto). congruence. }
          destruct H as [->|H]; [|contradiction]. exists [], h. auto. }
      destruct NCH as (h1 & h2 & EH & NI).
      assert (NC : ~ changes h2).
      { intros (s' & HC). apply in_split in HC as (u & w & ->).
        apply NI. apply in_app_iff. right. right. apply (F h1 u w [] s'). rewrite EH, <- !app_assoc. reflexivity. }
      destruct (D2 h1 h2 EH NC) as (l' & L' & S'). destruct (D1 H) as (a' & A' & DA').
      exists a'. rewrite K3. split; [|exact DA'].
      unfold SymModel.spacegroup_analyzer, outdated. rewrite A', L', S'. cbn. exact A'.
    + intros h1 h2 E' NC. exists l. split; [exact L|]. destruct K1 as [K1 K2]. unfold sites. rewrite K1, K2. exact S.
  - destruct (data_fresh h o C IH) as (a & FF & E & A & D & l & L & S). pose proof (data_keeps o) as (K1 & _).
    split; [intro H; destruct H; apply in_app_iff; right; now left|]. split; [eauto|]. intros. exists l. split; [exact L|]. destruct K1 as [K1 K2]. unfold sites. rewrite K1, K2. exact S.
Qed.
End Proofs.

Section Kept.
Context {Site Kwargs Analyzer Data : Type}.
Variable same : list Site -> list Site -> bool.
Variable analyze : list Site -> Kwargs -> option Analyzer.
Variable dataset : Analyzer -> Data.
Variable a : Analyzer.
Definition kept (x : structure Site Kwargs Analyzer Data) : Prop := stored_analyzer x = Some a /\ outdated same x = false.
Lemma kept_analyzer x : kept x -> spacegroup_analyzer same analyze x = (Some a, x).
Proof. intros (A & O). unfold spacegroup_analyzer. rewrite A, O. reflexivity. Qed.
Lemma outdated_kept x p : kept x -> (forall s, p <> ChangeSites s) -> (forall i y, p <> EditSite i y) -> kept (step same analyze dataset x p).
Proof.
  intros K N M. pose proof (kept_analyzer x K) as G. destruct K as [A O]. destruct p as [s|i y|k| |]; cbn [step].
  - now destruct (N s).
  - now destruct (M i y).
  - split; auto.
  - rewrite G. split; auto.
  - unfold symmetry_data. rewrite O, orb_false_r. destruct (stored_data x) as [d|]; [split; auto|]. rewrite G. split; auto.
Qed.
Lemma kept_answers x : kept x -> fst (spacegroup_analyzer same analyze x) = Some a /\
  forall k, fst (symmetry_data same analyze dataset (set_kwargs k x)) = Some (dataset a).
Proof.
  intro K. split; [now rewrite kept_analyzer|]. intro k. unfold symmetry_data. cbn [set_kwargs stored_data orb]. rewrite kept_analyzer; [reflexivity|exact K].
Qed.
End Kept.

(** While the settings are not assigned, no site is edited in place and no search fails, the analyzer is that of the
    present sites; and so are the data, when after a change of the sites they are read before the analyzer. *)
Theorem C268_fresh : forall Site Kwargs Analyzer Data same (analyze : list Site -> Kwargs -> option Analyzer) (dataset : Analyzer -> Data) k,
  (forall s, same s s = true) -> (forall s s', same s s' = true -> analyze s k = analyze s' k) -> (forall s, analyze s k <> None) ->
  forall hp s h, ~ assigns h -> ~ edits h ->
  let o := run same analyze dataset h (new_structure hp s k) in
  exists a, analyze (map hp (refs_after s h)) k = Some a /\
    fst (spacegroup_analyzer same analyze o) = Some a /\
    (data_first h -> fst (symmetry_data same analyze dataset o) = Some (dataset a)).
Proof.
  intros Site Kwargs Analyzer Data same analyze dataset k R C T hp s h N M o.
  assert (CO : coherent analyze k o) by (apply coherent_run; auto; apply coherent_new).
  assert (SI : sites o = map hp (refs_after s h)).
  { unfold sites, o. rewrite refs_run, heap_run by exact M. reflexivity. }
  destruct (analyzer_fresh same analyze k R C T o CO) as (a & F & E & _). rewrite SI in E.
  exists a. split; [exact E|]. split; [exact F|]. intro DF.
  destruct (data_fresh same analyze dataset k R C T h o CO (data_known_run same analyze dataset k R C T hp s h N M DF)) as (a' & F' & E' & _).
  rewrite SI in E'. rewrite F'. congruence.
Qed.
Print Assumptions C268_fresh.

(** Reading the data and then the analyzer, as the search for bonds does: both come from the same analysis of the
    present sites, whatever was read before in that order. *)
Theorem C268_pair : forall Site Kwargs Analyzer Data same (analyze : list Site -> Kwargs -> option Analyzer) (dataset : Analyzer -> Data) k,
  (forall s, same s s = true) -> (forall s s', same s s' = true -> analyze s k = analyze s' k) -> (forall s, analyze s k <> None) ->
  forall hp s h, ~ assigns h -> ~ edits h -> data_first h ->
  let o := run same analyze dataset h (new_structure hp s k) in
  exists a, analyze (map hp (refs_after s h)) k = Some a /\
    fst (symmetry_data same analyze dataset o) = Some (dataset a) /\
    fst (spacegroup_analyzer same analyze (snd (symmetry_data same analyze dataset o))) = Some a.
Proof.
  intros Site Kwargs Analyzer Data same analyze dataset k R C T hp s h N M DF o.
  destruct (C268_fresh _ _ _ _ same analyze dataset k R C T hp s h N M) as (a & E & _ & D). specialize (D DF).
  exists a. split; [exact E|]. split; [exact D|].
  assert (N2 : ~ assigns (h ++ [ReadData])).
  { intros (k' & H). apply in_app_iff in H as [H|[H|[]]]; [|discriminate]. apply N. exists k'. exact H. }
  assert (M2 : ~ edits (h ++ [ReadData])).
  { intros (i & x & H). apply in_app_iff in H as [H|[H|[]]]; [|discriminate]. apply M. exists i, x. exact H. }
  destruct (C268_fresh _ _ _ _ same analyze dataset k R C T hp s (h ++ [ReadData]) N2 M2) as (a' & E' & F' & _).
  rewrite run_app in F'. unfold refs_after in E'. rewrite fold_left_app in E'. cbn [fold_left] in E'. unfold refs_after in E. cbn in F'. fold o in F'. congruence.
Qed.
Print Assumptions C268_pair.

(** Once the analyzer has been read, assigning settings changes no answer before the sites change. *)
Theorem C269_ignored : forall Site Kwargs Analyzer Data same (analyze : list Site -> Kwargs -> option Analyzer) (dataset : Analyzer -> Data),
  (forall s, same s s = true) ->
  forall o a h, fst (spacegroup_analyzer same analyze o) = Some a -> ~ changes h -> ~ edits h ->
  let o1 := run same analyze dataset h (snd (spacegroup_analyzer same analyze o)) in
  fst (spacegroup_analyzer same analyze o1) = Some a /\
  forall k, fst (symmetry_data same analyze dataset (set_kwargs k o1)) = Some (dataset a).
Proof.
  intros Site Kwargs Analyzer Data same analyze dataset R o a h F N M o1.
  pose proof (outdated_kept same analyze dataset a) as G.
  assert (I0 : stored_analyzer (snd (spacegroup_analyzer same analyze o)) = Some a /\ outdated same (snd (spacegroup_analyzer same analyze o)) = false).
  { revert F. unfold spacegroup_analyzer. destruct (_ || _) eqn:O.
    - destruct (analyze (sites o) (kwargs o)) as [a'|]; [|discriminate]. cbn. intros [= ->]. split; [reflexivity|]. unfold outdated, sites. cbn. now rewrite R.
    - cbn. intro A. split; [exact A|]. now apply orb_false_iff in O as [_ ->]. }
  apply kept_answers. unfold o1. clear o1. revert I0. generalize (snd (spacegroup_analyzer same analyze o)). clear F. induction h as [|p h IH]; intros x I0; [exact I0|].
  cbn [run fold_left]. apply IH; [intros (s & H); apply N; exists s; now right|intros (i & y & H); apply M; exists i, y; now right|].
  apply G; [exact I0|intros s ->; apply N; exists s; now left|intros i y ->; apply M; exists i, y; now left].
Qed.
Print Assumptions C269_ignored.

(** ** C274: sites edited in place *)
(** After the first reading, sites edited in place leave every answer as it was, until sites are added, removed or
    replaced. *)
Theorem C274_unnoticed : forall Site Kwargs Analyzer Data same (analyze : list Site -> Kwargs -> option Analyzer) (dataset : Analyzer -> Data),
  (forall s, same s s = true) ->
  forall hp s k a h, analyze (map hp s) k = Some a -> ~ changes h ->
  let o1 := run same analyze dataset (ReadAnalyzer :: h) (new_structure hp s k) in
  fst (spacegroup_analyzer same analyze o1) = Some a /\ fst (symmetry_data same analyze dataset o1) = Some (dataset a).
Proof.
  intros Site Kwargs Analyzer Data same analyze dataset R hp s k a h E N o1.
  assert (I : stored_analyzer o1 = Some a /\ last_save o1 = Some (refs o1) /\ (stored_data o1 = None \/ stored_data o1 = Some (dataset a))).
  { unfold o1. cbn [run fold_left step]. change (fold_left (step same analyze dataset) h) with (run same analyze dataset h).
    assert (I0 : let x := snd (spacegroup_analyzer same analyze (@new_structure _ _ _ Data hp s k)) in
      stored_analyzer x = Some a /\ last_save x = Some (refs x) /\ (stored_data x = None \/ stored_data x = Some (dataset a))).
    { unfold spacegroup_analyzer, sites. cbn. rewrite E. cbn. auto. }
    cbv zeta in I0. revert I0. generalize (snd (spacegroup_analyzer same analyze (@new_structure _ _ _ Data hp s k))).
    induction h as [|p h IH]; intros x (A & L & D); [auto|]. cbn [run fold_left]. apply IH; [intros (t & H); apply N; exists t; now right|].
    assert (O : outdated same x = false) by (unfold outdated, sites; rewrite L, R; reflexivity).
    assert (G : spacegroup_analyzer same analyze x = (Some a, x)) by (unfold spacegroup_analyzer; rewrite A, O; reflexivity).
    destruct p as [t|i y|k'| |]; cbn [step].
    - destruct N. exists t. now left.
    - cbn. auto.
    - cbn. auto.
    - rewrite G. auto.
    - unfold symmetry_data. rewrite O, orb_false_r. destruct D as [D|D]; rewrite D; [rewrite G; cbn; auto|auto]. }
  destruct I as (A & L & D).
  assert (O : outdated same o1 = false) by (unfold outdated, sites; rewrite L, R; reflexivity).
  assert (G : spacegroup_analyzer same analyze o1 = (Some a, o1)) by (unfold spacegroup_analyzer; rewrite A, O; reflexivity).
  split; [now rewrite G|]. unfold symmetry_data. rewrite O, orb_false_r. destruct D as [D|D]; rewrite D; [now rewrite G|reflexivity].
Qed.
Print Assumptions C274_unnoticed.

(** ** Examples: a site and the settings are numbers, object [i] holds the number [i] at first; searches fail when a
    site is 7. *)
Definition ex_total (s : list nat) (k : nat) : option (list nat * nat) := Some (s, k).
Definition ex_analyze (s : list nat) (k : nat) : option (list nat * nat) := if existsb (Nat.eqb 7) s then None else Some (s, k).
Definition ex_same (s s' : list nat) : bool := if list_eq_dec Nat.eq_dec s s' then true else false.
Definition ex_heap (i : nat) : nat := i.
Lemma ex_same_iff s s' : ex_same s s' = true <-> s = s'.
Proof. unfold ex_same. destruct (list_eq_dec Nat.eq_dec s s'); split; congruence. Qed.

Example C268_ex : let h := [ReadData; ReadAnalyzer; ChangeSites [2]; ReadData; ReadAnalyzer; ChangeSites [3; 4]]%nat in
  ~ assigns h /\ ~ edits h /\
  fst (symmetry_data ex_same ex_total (fun a => a) (run ex_same ex_total (fun a => a) h (new_structure ex_heap [1] 5)))%nat = Some ([3; 4], 5)%nat.
Proof. split; [|split; [|reflexivity]]; [intros (k & H)|intros (i & x & H)]; cbn in H; decompose [or] H; try discriminate; assumption. Qed.
Example C268_ex_first : @data_first nat nat [ReadData; ReadAnalyzer; ChangeSites [2%nat]; ReadData; ReadAnalyzer] /\ ~ @data_first nat nat [ReadData; ChangeSites [2%nat]; ReadAnalyzer].
Proof.
  split.
  - intros h1 h2 h3 h4 s E.
    destruct h1 as [|? [|? [|? [|? [|? [|? ?]]]]]]; cbn in E; try discriminate; injection E as E; subst; try discriminate;
      destruct h2 as [|? [|? [|? [|? [|? ?]]]]]; cbn in *; try discriminate; repeat match goal with H : _ :: _ = _ :: _ |- _ => injection H as H; subst end; try discriminate;
      destruct h3 as [|? [|? [|? ?]]]; cbn in *; try discriminate; repeat match goal with H : _ :: _ = _ :: _ |- _ => injection H as H; subst end; try discriminate; cbn; auto.
  - intro F. specialize (F [] [] [] [] [2%nat] eq_refl). destruct F.
Qed.

(** C269: assigned settings are used. *)
Theorem C269_settings_used_refuted : exists (same : list nat -> list nat -> bool) (analyze : list nat -> nat -> option (list nat * nat)) hp s k k',
  (forall s s', same s s' = true <-> s = s') /\ (forall s k, analyze s k = Some (s, k)) /\ k <> k' /\
  fst (spacegroup_analyzer same analyze (set_kwargs k' (snd (spacegroup_analyzer same analyze (@new_structure _ _ _ nat hp s k))))) = Some (map hp s, k) /\
  fst (symmetry_data same analyze (fun a => a) (set_kwargs k' (snd (symmetry_data same analyze (fun a => a) (new_structure hp s k))))) = Some (map hp s, k).
Proof. exists ex_same, ex_total, ex_heap, [1%nat], 5%nat, 6%nat. repeat split; try reflexivity; try discriminate; try apply ex_same_iff. Qed.
Print Assumptions C269_settings_used_refuted.

(** C270: the data are those of the present sites, without any assignment of settings, edit of a site or failure. *)
Theorem C270_data_current_refuted : exists (same : list nat -> list nat -> bool) (analyze : list nat -> nat -> option (list nat * nat)) hp s s' k,
  (forall s s', same s s' = true <-> s = s') /\ (forall s k, analyze s k = Some (s, k)) /\ map hp s <> map hp s' /\
  let o := run same analyze (fun a => a) [ReadData; ChangeSites s'; ReadAnalyzer] (new_structure hp s k) in
  sites o = map hp s' /\ fst (spacegroup_analyzer same analyze o) = Some (map hp s', k) /\ fst (symmetry_data same analyze (fun a => a) o) = Some (map hp s, k).
Proof. exists ex_same, ex_total, ex_heap, [1%nat], [2%nat], 5%nat. repeat split; try reflexivity; try discriminate; try apply ex_same_iff. Qed.
Print Assumptions C270_data_current_refuted.

(** C271: a search that fails fails again when repeated; the second reading answers with the analysis of other sites. *)
Theorem C271_failure_repeats_refuted : exists (same : list nat -> list nat -> bool) (analyze : list nat -> nat -> option (list nat * nat)) hp s s' k,
  (forall s s', same s s' = true <-> s = s') /\ (forall s k a, analyze s k = Some a -> a = (s, k)) /\ analyze (map hp s') k = None /\ map hp s <> map hp s' /\
  let o := run same analyze (fun a => a) [ReadData; ChangeSites s'] (new_structure hp s k) in
  fst (symmetry_data same analyze (fun a => a) o) = None /\
  let o2 := snd (symmetry_data same analyze (fun a => a) o) in
  sites o2 = map hp s' /\ fst (symmetry_data same analyze (fun a => a) o2) = Some (map hp s, k) /\ fst (spacegroup_analyzer same analyze o2) = Some (map hp s, k).
Proof.
  exists ex_same, ex_analyze, ex_heap, [1%nat], [7%nat], 5%nat. split; [intros; apply ex_same_iff|]. split.
  - intros s k a. unfold ex_analyze. destruct (existsb _ s); [discriminate|now intros [= <-]].
  - repeat split; try reflexivity; discriminate.
Qed.
Print Assumptions C271_failure_repeats_refuted.

(** C274: the symmetry follows a site edited in place. *)
Theorem C274_edit_noticed_refuted : exists (same : list nat -> list nat -> bool) (analyze : list nat -> nat -> option (list nat * nat)) hp s k i x,
  (forall s s', same s s' = true <-> s = s') /\ (forall s k, analyze s k = Some (s, k)) /\
  let o := run same analyze (fun a => a) [ReadData; EditSite i x] (new_structure hp s k) in
  sites o <> map hp s /\ fst (spacegroup_analyzer same analyze o) = Some (map hp s, k) /\ fst (symmetry_data same analyze (fun a => a) o) = Some (map hp s, k).
Proof. exists ex_same, ex_total, ex_heap, [1%nat; 2%nat], 5%nat, 2%nat, 8%nat. repeat split; try reflexivity; try discriminate; try apply ex_same_iff. Qed.
Print Assumptions C274_edit_noticed_refuted.
(** Replacing the site by another object is noticed. *)
Example C274_ex_replaced :
  fst (symmetry_data ex_same ex_total (fun a => a) (run ex_same ex_total (fun a => a) [ReadData; ChangeSites [1; 8]] (new_structure ex_heap [1; 2] 5)))%nat = Some ([1; 8], 5)%nat.
Proof. reflexivity. Qed.
