(** C184-C186: oxidation states, electrides per formula and surfaces of the features. *)
From Coq Require Import QArith Lqa String Sorted Permutation.
From Verif Require Import Base RootsModel UnionModel GridModel NeighModel NeighSpec NeighProofs ChargeModel ChargeProofs LabelsModel NearModel SurfaceModel SurfaceProps.
From Verif Require Import MarkModel ReportModel ReportProofs.
From Verif Require Import GridProofs.
From Verif Require NearProofs ShareModel ShareSpec ShareProofs ShareProps CoreProps.
Local Open Scope nat_scope.

(** ** C184: oxidation states *)
(** The electron count of an element: that of its last section. *)
Definition valence (potcars : list (string * Q)) (s : string) (v : Q) : Prop :=
  exists l1 l2, potcars = l1 ++ (s, v) :: l2 /\ forall p, In p l2 -> fst p <> s.

Lemma get_set d k v s : get_entry (set_entry d k v) s = if String.eqb k s then Some v else get_entry d s.
Proof.
  induction d as [|(k', v') d IH]; cbn [set_entry get_entry]; [reflexivity|].
  destruct (String.eqb_spec k' k) as [->|NE]; cbn [get_entry].
  - destruct (String.eqb k s); reflexivity.
  - destruct (String.eqb_spec k' s) as [->|NE']; [|exact IH]. destruct (String.eqb_spec k s) as [->|]; [congruence|reflexivity].
Qed.
Lemma data_snoc l p : nelectron_data (l ++ [p]) = set_entry (nelectron_data l) (fst p) (snd p).
Proof. unfold nelectron_data. now rewrite fold_left_app. Qed.
Lemma entry_some potcars s v : get_entry (nelectron_data potcars) s = Some v <-> valence potcars s v.
Proof.
  unfold valence. induction potcars as [|p l IH] using rev_ind.
  - split; [discriminate|]. intros ([|? ?] & l2 & H & _); discriminate.
  - rewrite data_snoc, get_set. destruct p as (k, w). cbn [fst snd]. destruct (String.eqb_spec k s) as [->|NE].
    + split.
      * intros [= ->]. exists l, []. split; [reflexivity|]. intros p [].
      * intros (l1 & l2 & E & H). destruct l2 as [|q l2] using rev_ind.
        -- apply app_inj_tail in E as (_ & E). injection E as ->. reflexivity.
        -- exfalso. change ((s, v) :: l2 ++ [q]) with (((s, v) :: l2) ++ [q]) in E. rewrite app_assoc in E. apply app_inj_tail in E as (_ & <-).
           apply (H (s, w)); [apply in_or_app; right; now left|reflexivity].
    + rewrite IH. split.
      * intros (l1 & l2 & -> & H). exists l1, (l2 ++ [(k, w)]). split; [now rewrite <- app_assoc|]. intros p P. apply in_app_or in P as [P|[<-|[]]]; [now apply H|exact NE].
      * intros (l1 & l2 & E & H). destruct l2 as [|q l2] using rev_ind.
        -- apply app_inj_tail in E as (_ & E). injection E as -> _. congruence.
        -- clear IHl2. change ((s, v) :: l2 ++ [q]) with (((s, v) :: l2) ++ [q]) in E. rewrite app_assoc in E. apply app_inj_tail in E as (-> & _).
           exists l1, l2. split; [reflexivity|]. intros p P. apply H, in_or_app. now left.
Qed.
Lemma entry_none potcars s : get_entry (nelectron_data potcars) s = None <-> ~ In s (map fst potcars).
Proof.
  induction potcars as [|p l IH] using rev_ind; [cbn; tauto|]. rewrite data_snoc, get_set, map_app, in_app_iff. cbn [map In].
  destruct (String.eqb_spec (fst p) s) as [->|NE]; [split; [discriminate|tauto]|]. rewrite IH. tauto.
Qed.
Lemma entry_cases potcars s : (exists v, get_entry (nelectron_data potcars) s = Some v) <-> In s (map fst potcars).
Proof.
  destruct (get_entry (nelectron_data potcars) s) as [v|] eqn:E.
  - split; [|eauto]. intros _. destruct (in_dec string_dec s (map fst potcars)) as [I|N]; [exact I|]. apply entry_none in N. congruence.
  - apply entry_none in E. split; [intros (v & [=])|contradiction].
Qed.

(** Bader: every atom's count minus its charge; an element missing from the POTCAR raises. *)
Theorem C184_bader potcars structure charges : List.length charges = List.length structure ->
  ((exists r, bader_oxidation potcars structure charges = Done r) <-> forall s, In s structure -> In s (map fst potcars)) /\
  forall r, bader_oxidation potcars structure charges = Done r -> List.length r = List.length structure /\
    exists vs, Forall2 (valence potcars) structure vs /\ r = map (fun '(v, q) => (v - q)%Q) (combine vs charges).
Proof.
  intro L. unfold bader_oxidation. split.
  - revert charges L. induction structure as [|s t IH]; intros [|q c] L; try discriminate; cbn [combine bader_rows].
    + split; [intros _ s []|eauto].
    + injection L as L. specialize (IH c L). destruct (get_entry (nelectron_data potcars) s) as [v|] eqn:E.
      * destruct (bader_rows _ (combine t c)) as [r| |]; cbn [obind].
        -- split; [|eauto]. intros _ x [<-|X]; [apply entry_cases; eauto|]. apply IH; eauto.
        -- split; [intros (r & [=])|]. intro H. destruct (proj2 IH) as (r & [=]). intros x X. apply H. now right.
        -- split; [intros (r & [=])|]. intro H. destruct (proj2 IH) as (r & [=]). intros x X. apply H. now right.
      * split; [intros (r & [=])|]. intro H. destruct (proj2 (entry_cases potcars s)) as (v & V); [apply H; now left|]. congruence.
  - revert charges L. induction structure as [|s t IH]; intros [|q c] L r; try discriminate; cbn [combine bader_rows].
    + intros [= <-]. split; [reflexivity|]. exists []. split; [constructor|reflexivity].
    + destruct (get_entry (nelectron_data potcars) s) as [v|] eqn:E; [|discriminate]. destruct (bader_rows _ (combine t c)) as [r'| |] eqn:E'; cbn [obind]; try discriminate.
      intros [= <-]. injection L as L. destruct (IH c L r' E') as (L' & vs & F & R). split; [cbn; congruence|]. exists (v :: vs).
      split; [constructor; [now apply entry_some|exact F]|]. cbn [combine map]. now rewrite R.
Qed.
Print Assumptions C184_bader.

Lemma set_valence_spec d : forall l val i, i + List.length l <= List.length val ->
  match set_valence d val i l with
  | Done r => (forall s, In s l -> get_entry d s <> None) /\ r = firstn i val ++ map (fun s => match get_entry d s with Some v => v | None => 0%Q end) l ++ skipn (i + List.length l) val
  | Raised => exists s, In s l /\ get_entry d s = None
  | Running => False
  end.
Proof.
  induction l as [|s l IH]; intros val i H; cbn [set_valence].
  - split; [intros s []|]. cbn [map app List.length]. now rewrite Nat.add_0_r, firstn_skipn.
  - cbn [List.length] in *. destruct (get_entry d s) as [v|] eqn:E; [|exists s; split; [now left|exact E]].
    rewrite (proj2 (Nat.ltb_lt i (List.length val))) by lia. specialize (IH (upd val i v) (S i)). rewrite upd_len in IH. specialize (IH ltac:(lia)).
    destruct (set_valence d (upd val i v) (S i) l) as [r| |]; [|destruct IH as (x & X & Y); exists x; split; [now right|exact Y]|exact IH].
    destruct IH as (A & ->). split; [intros x [<-|X]; [congruence|now apply A]|].
    assert (F : firstn (S i) (upd val i v) = firstn i val ++ [v]).
    { clear -H. revert i H. induction val as [|a val IH]; intros i H; [cbn in H; lia|]. destruct i as [|i]; [reflexivity|]. cbn [upd firstn app]. f_equal. apply IH. cbn in H. lia. }
    assert (K : forall k, i < k -> skipn k (upd val i v) = skipn k val).
    { clear. revert i. induction val as [|a val IH]; intros i k K; [now destruct i|]. destruct k as [|k]; [lia|]. destruct i as [|i]; [reflexivity|]. cbn [upd skipn]. apply IH. lia. }
    rewrite F, K by lia. cbn [map]. rewrite E, <- app_assoc. replace (S i + List.length l) with (i + S (List.length l)) by lia. reflexivity.
Qed.
Lemma skipn_repeat {A} (x : A) : forall n k, skipn k (repeat x n) = repeat x (n - k).
Proof. induction n as [|n IH]; intros [|k]; cbn; auto. Qed.

(** BadELF: the same for the atoms, and minus the charge for the electrides that follow them. *)
Theorem C184_badelf potcars structure n charges : List.length structure <= n -> List.length charges = n ->
  ((exists r, badelf_oxidation potcars structure n charges = Done r) <-> forall s, In s structure -> In s (map fst potcars)) /\
  forall r, badelf_oxidation potcars structure n charges = Done r -> List.length r = n /\
    exists vs, Forall2 (valence potcars) structure vs /\
      r = map (fun '(v, q) => (v - q)%Q) (combine (vs ++ repeat 0%Q (n - List.length structure)) charges).
Proof.
  intros LE LC. unfold badelf_oxidation. pose proof (set_valence_spec (nelectron_data potcars) structure (repeat 0%Q n) 0) as S.
  rewrite repeat_length in S. specialize (S LE). destruct (set_valence _ _ 0 structure) as [v| |]; [|destruct S as (s & I & N)|destruct S]; cbn [obind].
  - destruct S as (A & ->). cbn [firstn app Nat.add]. rewrite skipn_repeat. set (vs := map _ structure).
    assert (LV : List.length (vs ++ repeat 0%Q (n - List.length structure)) = n) by (unfold vs; rewrite app_length, map_length, repeat_length; lia).
    rewrite LV, LC, Nat.eqb_refl. split.
    + split; [|eauto]. intros _ s I. apply entry_cases. specialize (A s I). destruct (get_entry _ s); [eauto|congruence].
    + intros r [= <-]. split; [rewrite map_length, combine_length; lia|]. exists vs. split; [|reflexivity].
      unfold vs. clear -A. induction structure as [|s l IH]; [constructor|]. cbn [map]. constructor; [|apply IH; intros x X; apply A; now right].
      apply entry_some. specialize (A s (or_introl eq_refl)). destruct (get_entry _ s); [reflexivity|congruence].
  - split; [|discriminate]. split; [intros (r & [=])|]. intro H. apply entry_none in N. exfalso. auto.
Qed.
Print Assumptions C184_badelf.

(** Labeler: sites whose symbol is not in the POTCAR, the electrides among them, count with no electrons of their own. *)
Theorem C184_labeler potcars structure charges : List.length charges = List.length structure ->
  List.length (labeler_oxidation potcars structure charges) = List.length structure /\
  forall i s q, nth_error structure i = Some s -> nth_error charges i = Some q ->
    exists v, nth_error (labeler_oxidation potcars structure charges) i = Some (v - q)%Q /\
      (In s (map fst potcars) -> valence potcars s v) /\ (~ In s (map fst potcars) -> v = 0%Q).
Proof.
  intro L. unfold labeler_oxidation. split; [rewrite map_length, combine_length; lia|].
  intros i s q HS HQ. assert (HC : nth_error (combine structure charges) i = Some (s, q)).
  { clear L. revert charges i HS HQ. induction structure as [|a t IH]; intros [|b c] [|i] HS HQ; try discriminate; cbn in *; [congruence|]. now apply IH. }
  rewrite nth_error_map, HC. cbn [option_map]. eexists. split; [reflexivity|]. split.
  - intro I. apply entry_cases in I as (v & V). rewrite V. now apply entry_some.
  - intro N. apply entry_none in N. now rewrite N.
Qed.
Print Assumptions C184_labeler.

Lemma qsum_sub : forall a b, List.length a = List.length b -> (qsum (map (fun '(v, q) => (v - q)%Q) (combine a b)) == qsum a - qsum b)%Q.
Proof.
  induction a as [|x a IH]; intros [|y b] L; try discriminate; [cbn; lra|]. cbn [combine map]. rewrite !qsum_cons, IH by (now injection L). lra.
Qed.
Lemma qsum_app' a b : (qsum (a ++ b) == qsum a + qsum b)%Q.
Proof. induction a as [|x a IH]; cbn [app]; [unfold qsum at 2; cbn; lra|]. rewrite !qsum_cons, IH. lra. Qed.
(** The oxidation states add up to the electrons of the neutral atoms minus the charges assigned. *)
Theorem C184_total potcars structure n charges r : List.length structure <= n -> List.length charges = n ->
  badelf_oxidation potcars structure n charges = Done r ->
  exists vs, Forall2 (valence potcars) structure vs /\ (qsum r == qsum vs - qsum charges)%Q.
Proof.
  intros LE LC E. destruct (proj2 (C184_badelf potcars structure n charges LE LC) r E) as (_ & vs & F & ->). exists vs. split; [exact F|].
  assert (LF : List.length structure = List.length vs) by (clear -F; induction F; cbn; congruence). rewrite qsum_sub by (rewrite app_length, repeat_length; lia). rewrite qsum_app', qsum_repeat0. lra.
Qed.
Print Assumptions C184_total.

(** Labeler and BadELF agree on the same charges when the dummy atoms are not in the POTCAR. *)
Theorem C184_agree potcars structure dummies charges r : List.length charges = List.length structure + List.length dummies ->
  (forall s, In s dummies -> ~ In s (map fst potcars)) ->
  badelf_oxidation potcars structure (List.length structure + List.length dummies) charges = Done r ->
  labeler_oxidation potcars (structure ++ dummies) charges = r.
Proof.
  intros LC ND E. destruct (proj2 (C184_badelf potcars structure _ charges (Nat.le_add_r _ _) LC) r E) as (_ & vs & F & ->).
  replace (List.length structure + List.length dummies - List.length structure) with (List.length dummies) by lia.
  unfold labeler_oxidation. clear E. revert charges LC. induction F as [|s v structure vs V F IH]; intros charges LC.
  - cbn [app List.length Nat.add] in *. revert charges LC. induction dummies as [|s t IH]; intros [|q c] LC; try discriminate; [reflexivity|].
    cbn [repeat List.length combine map]. rewrite (proj2 (entry_none potcars s)) by (apply ND; now left). f_equal. apply IH; [|now injection LC]. intros x X. apply ND. now right.
  - destruct charges as [|q c]; [discriminate|]. cbn [app combine map]. rewrite (proj2 (entry_some potcars s v) V). f_equal. apply IH. now injection LC.
Qed.
Print Assumptions C184_agree.

Example C184_ex : badelf_oxidation [("Ca", 10%Q); ("N", 5%Q)]%string ["Ca"; "Ca"; "N"]%string 4 [(86 # 10); (86 # 10); (65 # 10); (13 # 10)]%Q
    = Done [10 - (86 # 10); 10 - (86 # 10); 5 - (65 # 10); 0 - (13 # 10)]%Q /\
  bader_oxidation [("Ca", 10%Q)]%string ["Ca"; "N"]%string [8; 7]%Q = Raised.
Proof. split; vm_compute; reflexivity. Qed.

(** ** C185: electrides per formula *)
Lemma per_formula_sum nodes : (electrides_per_formula nodes == qsum (map r_charge (filter (fun n => type_in (r_type n) bare_types) nodes)))%Q.
Proof.
  unfold electrides_per_formula. assert (G : forall a, (fold_left (fun s n => if type_in (r_type n) bare_types then (s + r_charge n)%Q else s) nodes a ==
    a + qsum (map r_charge (filter (fun n => type_in (r_type n) bare_types) nodes)))%Q).
  { induction nodes as [|n l IH]; intro a; cbn [fold_left filter]; [unfold qsum; cbn; lra|]. rewrite IH. destruct (type_in (r_type n) bare_types); cbn [map]; [rewrite qsum_cons|]; lra. }
  rewrite G. lra.
Qed.

Section PerFormula.
Import ShareModel ShareSpec ShareProofs ShareProps.
Variable sys : system.
Variable m : method.
Hypothesis OK : sharable sys true m.
Hypothesis ATOMS : forall f b, In f (s_features sys) -> ft_bare f = false -> In b (ft_coord_e f) -> b < s_atoms sys.

Lemma fraction_zero f a : In f (s_features sys) -> ft_bare f = false -> s_atoms sys <= a -> (fraction sys true m f a == 0)%Q.
Proof.
  intros I B A. unfold fraction. cbn [neighbours]. assert (N : ~ In a (ft_coord_e f)) by (intro H; apply (ATOMS f a I B) in H; lia).
  destruct (ft_coord_e f) as [|b [|c t]] eqn:E.
  - cbn. unfold Qdiv. lra.
  - destruct (Nat.eqb_spec a b) as [->|]; [exfalso; apply N; now left|lra].
  - rewrite (not_in_zero (raw sys true m f) a (b :: c :: t)) by exact N. unfold Qdiv. lra.
Qed.

Lemma got_site : forall l pre k, s_features sys = pre ++ l ->
  (got sys true m ft_charge (List.length pre) l (s_atoms sys + (List.length (filter ft_bare pre) + k)) == nth k (map ft_charge (filter ft_bare l)) 0)%Q.
Proof.
  induction l as [|f t IH]; intros pre k E; unfold got; cbn [List.length seq combine map filter]; [now destruct k|]. rewrite qsum_cons.
  assert (IF : In f (s_features sys)) by (rewrite E; apply in_or_app; right; now left).
  assert (E' : s_features sys = (pre ++ [f]) ++ t) by now rewrite <- app_assoc.
  assert (FP : firstn (List.length pre) (s_features sys) = pre) by (rewrite E; apply firstn_app_exact).
  assert (R : forall x, (qsum (map (fun '(j, g) => (ft_charge g * owned sys true m j g x)%Q) (combine (seq (S (List.length pre)) (List.length t)) t)) ==
     got sys true m ft_charge (List.length (pre ++ [f])) t x)%Q) by (intro x; unfold got; rewrite app_length; cbn [List.length]; rewrite Nat.add_1_r; reflexivity).
  assert (LFB : List.length (filter ft_bare (pre ++ [f])) = List.length (filter ft_bare pre) + (if ft_bare f then 1 else 0)).
  { rewrite filter_app, app_length. cbn [filter]. now destruct (ft_bare f). }
  rewrite R. unfold owned. cbn [andb]. destruct (ft_bare f) eqn:B.
  - rewrite FP. destruct k as [|k].
    + rewrite Nat.add_0_r, Nat.eqb_refl. cbn [map nth].
      enough (Z : (got sys true m ft_charge (List.length (pre ++ [f])) t (s_atoms sys + List.length (filter ft_bare pre)) == 0)%Q) by (rewrite Z; lra).
      clear IH R FP. assert (G : forall t pre', s_features sys = pre' ++ t -> List.length (filter ft_bare pre) < List.length (filter ft_bare pre') ->
        (got sys true m ft_charge (List.length pre') t (s_atoms sys + List.length (filter ft_bare pre)) == 0)%Q).
      { clear t E E'. induction t as [|g t IH]; intros pre' E' LT; unfold got; cbn [List.length seq combine map]; [reflexivity|]. rewrite qsum_cons.
        specialize (IH (pre' ++ [g])). unfold got in IH. rewrite !app_length in IH. cbn [List.length] in IH. rewrite Nat.add_1_r in IH. rewrite IH; [|now rewrite <- app_assoc|].
        - unfold owned. cbn [andb]. destruct (ft_bare g) eqn:BG.
          + rewrite E', firstn_app_exact. destruct (Nat.eqb_spec (s_atoms sys + List.length (filter ft_bare pre)) (s_atoms sys + List.length (filter ft_bare pre'))); [lia|lra].
          + rewrite fraction_zero; [lra| |exact BG|lia]. rewrite E'. apply in_or_app. right. now left.
        - rewrite filter_app, app_length. lia. }
      apply G; [exact E'|]. rewrite filter_app, app_length. cbn [filter]. rewrite B. cbn. lia.
    + specialize (IH (pre ++ [f]) k E'). rewrite LFB in IH.
      replace (List.length (filter ft_bare pre) + 1 + k) with (List.length (filter ft_bare pre) + S k) in IH by lia. rewrite IH. cbn [map nth].
      destruct (Nat.eqb_spec (s_atoms sys + (List.length (filter ft_bare pre) + S k)) (s_atoms sys + List.length (filter ft_bare pre))); [lia|lra].
  - specialize (IH (pre ++ [f]) k E'). rewrite LFB, Nat.add_0_r in IH.
    rewrite IH, fraction_zero; [lra|exact IF|exact B|lia].
Qed.

(** The electrons of the electrides are the charges of the electride sites when no shared feature neighbours an electride. *)
Theorem C185_sites nodes c v : Forall2 (fun n f => (ft_bare f = true <-> is_bare n) /\ ft_charge f = r_charge n) nodes (s_features sys) ->
  get_charges_and_volumes sys true m = Done (c, v) ->
  (electrides_per_formula nodes == qsum (skipn (s_atoms sys) c))%Q.
Proof.
  intros F E. rewrite per_formula_sum. destruct (get_ok sys true m OK) as (c' & v' & E' & L & _ & N). rewrite E in E'. injection E' as <- <-.
  unfold n_sites in L. assert (Q1 : map r_charge (filter (fun n => type_in (r_type n) bare_types) nodes) = map ft_charge (filter ft_bare (s_features sys))).
  { clear -F. induction F as [|n f nodes fs (B & C) F IH]; [reflexivity|]. cbn [filter].
    replace (ft_bare f) with (type_in (r_type n) bare_types) by (apply Bool.eq_true_iff_eq; rewrite type_bare; now symmetry).
    destruct (type_in (r_type n) bare_types); cbn [map]; [rewrite C; now f_equal|exact IH]. }
  rewrite Q1. clear Q1 F. set (b := map ft_charge (filter ft_bare (s_features sys))) in *.
  assert (LB : List.length b = List.length (skipn (s_atoms sys) c)) by (unfold b; rewrite map_length, skipn_length; lia).
  rewrite (qsum_nth_seq b), (qsum_nth_seq (skipn (s_atoms sys) c)), LB. apply qsum_map_ext. intros k K. apply in_seq in K.
  assert (SK : forall (l : list Q) i j, nth j (skipn i l) 0%Q = nth (i + j) l 0%Q).
  { clear. induction l as [|x l IH]; intros [|i] j; cbn; auto. now destruct j. }
  rewrite SK, (proj1 (N (s_atoms sys + k))). symmetry. exact (got_site (s_features sys) [] k eq_refl).
Qed.
End PerFormula.
Print Assumptions C185_sites.

(** A fluoride with one electride; the lone bond is shared by the atoms. *)
Definition pf_sys : ShareModel.system := ShareModel.System 2
  [ShareModel.Feature false 10 5 [0] [0] [1; 2]%Q [1; 2; 2]%Q; ShareModel.Feature true (9 # 10) 4 [0; 1] [0; 1] [2; 2]%Q [2; 2; 1]%Q;
   ShareModel.Feature false 1 2 [0; 1] [0; 1] [1; 1]%Q [1; 1; 2]%Q] [1; 4]%Q [1; 1]%Q [1; 1; 1]%Q.
Definition pf_nodes : list rnode := [RNode Shell [0] (0, 0, 0)%Q 10 1 [0] [0]; RNode BareElectron [1] (0, 0, 0)%Q (9 # 10) 1 [0; 1] [0; 1];
  RNode Covalent [2] (0, 0, 0)%Q 1 1 [0; 1] [0; 1]].
Example C185_ex : (electrides_per_formula pf_nodes == 9 # 10)%Q /\
  exists c v, ShareModel.get_charges_and_volumes pf_sys true ShareModel.Equal = Done (c, v) /\ Forall2 Qeq c [105 # 10; 5 # 10; 9 # 10]%Q.
Proof. split; [vm_compute; reflexivity|]. eexists. eexists. split; [vm_compute; reflexivity|]. repeat constructor. Qed.
Example C185_ex_hyps : ShareSpec.sharable pf_sys true ShareModel.Equal /\
  (forall f b, In f (ShareModel.s_features pf_sys) -> ShareModel.ft_bare f = false -> In b (ShareModel.ft_coord_e f) -> b < ShareModel.s_atoms pf_sys) /\
  Forall2 (fun n f => (ShareModel.ft_bare f = true <-> is_bare n) /\ ShareModel.ft_charge f = r_charge n) pf_nodes (ShareModel.s_features pf_sys).
Proof.
  split; [split; [discriminate|]|split].
  - intros f [<-|[<-|[<-|[]]]] B; try discriminate; (split; [discriminate|]; split; [cbn; lia|]); intro L; cbn in L; [lia|].
    split; [vm_compute; discriminate|]. intros [H|H]; discriminate.
  - intros f b [<-|[<-|[<-|[]]]] B I; try discriminate; cbn in *; lia.
  - repeat constructor; cbn; unfold is_bare; cbn; intuition discriminate.
Qed.

(** ** C186: surfaces of the features *)
Section Surfaces.
Local Open Scope Z_scope.
Variables nx ny nz : Z.
Hypothesis NX : 0 < nx.
Hypothesis NY : 0 < ny.
Hypothesis NZ : 0 < nz.
Variable root : Q -> Q.
Variable matrix : mat.

Lemma feat_is_surf labels m coords edge max_value :
  get_min_avg_feat_surface_dists nx ny nz root matrix labels m coords edge max_value =
  get_min_avg_surface_dists nx ny nz root matrix (fun i j k => read_map m (labels i j k)) coords edge max_value.
Proof.
  unfold get_min_avg_feat_surface_dists, get_min_avg_surface_dists.
  assert (E : forall l st, fold_left (feat_step nx ny nz root matrix labels m coords edge) l st =
    fold_left (surf_step nx ny nz root matrix (fun i j k => read_map m (labels i j k)) coords edge) l st).
  { induction l as [|[[i j] k] l IH]; intro st; [reflexivity|]. cbn [fold_left]. rewrite IH. reflexivity. }
  now rewrite E.
Qed.

(** Every basin belongs to exactly one node. *)
Definition partition (nodes : list rnode) (nbasins : nat) : Prop :=
  (forall i n b, nth_error nodes i = Some n -> In b (r_basins n) -> (b < nbasins)%nat) /\
  (forall b, (b < nbasins)%nat -> exists i n, nth_error nodes i = Some n /\ In b (r_basins n)) /\
  (forall i j n n' b, nth_error nodes i = Some n -> nth_error nodes j = Some n' -> In b (r_basins n) -> In b (r_basins n') -> i = j).
Definition belongs (nodes : list rnode) (b : Z) (i : nat) : Prop := exists n, nth_error nodes i = Some n /\ exists c, b = Z.of_nat c /\ In c (r_basins n).

Lemma fold_upd_nth x : forall bs (l : list Z) b, nth b (fold_left (fun m b => upd m b x) bs l) 0 =
  if (existsb (Nat.eqb b) bs && (b <? List.length l)%nat)%bool then x else nth b l 0.
Proof.
  induction bs as [|a bs IH]; intros l b; cbn [fold_left existsb]; [reflexivity|]. rewrite IH, upd_len, nth_upd.
  rewrite (Nat.eqb_sym b a). destruct (Nat.eqb_spec a b) as [->|NE]; cbn [orb andb]; [|reflexivity].
  destruct (b <? List.length l)%nat; [|now rewrite Bool.andb_false_r]. rewrite Bool.andb_true_r. now destruct (existsb (Nat.eqb b) bs).
Qed.
Lemma fold_upd_len x : forall bs (l : list Z), List.length (fold_left (fun m b => upd m b x) bs l) = List.length l.
Proof. induction bs as [|a bs IH]; intro l; cbn; [reflexivity|]. now rewrite IH, upd_len. Qed.
Lemma feature_map_len junk nodes : List.length (feature_map junk nodes) = List.length junk.
Proof.
  unfold feature_map. generalize (combine (seq 0 (List.length nodes)) nodes). intro l. revert junk. induction l as [|(i, n) l IH]; intro junk; cbn [fold_left]; [reflexivity|].
  now rewrite IH, fold_upd_len.
Qed.
Lemma feature_map_nth junk nodes b i n : partition nodes (List.length junk) -> nth_error nodes i = Some n -> In b (r_basins n) ->
  nth b (feature_map junk nodes) 0 = Z.of_nat i.
Proof.
  intros (P1 & _ & P3) E I. specialize (P1 i n b E I) as LB.
  assert (G : forall l k m, List.length m = List.length junk ->
     (forall j n', nth_error l j = Some n' -> In b (r_basins n') -> (k + j)%nat = i) ->
     (exists j n', nth_error l j = Some n' /\ In b (r_basins n')) \/ nth b m 0 = Z.of_nat i ->
     nth b (fold_left (fun m '(i, n) => fold_left (fun m b => upd m b (Z.of_nat i)) (r_basins n) m) (combine (seq k (List.length l)) l) m) 0 = Z.of_nat i).
  { clear E I P1. induction l as [|n' l IH]; intros k m L U H; cbn [List.length seq combine fold_left].
    - destruct H as [(j & n' & H & _)|H]; [destruct j; discriminate|exact H].
    - apply IH; [now rewrite fold_upd_len| |].
      + intros j n2 H1 H2. rewrite Nat.add_succ_l, <- Nat.add_succ_r. now apply (U (S j) n2).
      + rewrite fold_upd_nth, L, (proj2 (Nat.ltb_lt _ _) LB), Bool.andb_true_r. destruct (existsb (Nat.eqb b) (r_basins n')) eqn:X.
        * right. apply existsb_exists in X as (y & Y & Z). apply Nat.eqb_eq in Z. subst y. f_equal. rewrite <- (U 0%nat n' eq_refl Y). lia.
        * destruct H as [(j & n2 & H1 & H2)|H]; [|right; exact H]. destruct j as [|j]; [|left; exists j, n2; auto].
          injection H1 as ->. exfalso. assert (T : existsb (Nat.eqb b) (r_basins n2) = true) by (apply existsb_exists; exists b; split; [exact H2|apply Nat.eqb_refl]). congruence. }
  apply G; [reflexivity| |left; exists i, n; auto]. intros j n' H1 H2. cbn. apply (P3 j i n' n b); auto.
Qed.
Lemma read_map_belongs junk nodes b i : partition nodes (List.length junk) -> 0 <= b < Z.of_nat (List.length junk) ->
  (read_map (feature_map junk nodes) b = Z.of_nat i <-> belongs nodes b i).
Proof.
  intros P B. unfold read_map, np_get. rewrite np_idx_pos by (rewrite feature_map_len; lia).
  pose proof P as (P1 & P2 & P3). destruct (P2 (Z.to_nat b)) as (j & n & E & I); [lia|].
  assert (N : nth_error (feature_map junk nodes) (Z.to_nat b) = Some (Z.of_nat j)).
  { rewrite (nth_error_nth' _ 0) by (rewrite feature_map_len; lia). f_equal. now apply (feature_map_nth junk nodes _ j n). }
  rewrite N. split.
  - intro H. assert (j = i) by lia. subst j. exists n. split; [exact E|]. exists (Z.to_nat b). split; [lia|exact I].
  - intros (n' & E' & c & C & I'). f_equal. apply (P3 j i n n' (Z.to_nat b)); auto. rewrite C, Nat2Z.id. exact I'.
Qed.

(** A voxel on the surface of feature [i]: outside the vacuum, in a basin of the feature, next to a voxel outside the vacuum and
    outside the feature. *)
Definition on_surface (nodes : list rnode) (labels : arr3 Z) (vac : arr3 bool) (ts : list (Z * Z * Z)) (i : nat) (v : Z * Z * Z) : Prop :=
  in_grid nx ny nz v /\ value_at vac v = false /\ belongs nodes (value_at labels v) i /\
  exists s w, In s ts /\ periodic_target nx ny nz v s w /\ value_at vac w = false /\ ~ belongs nodes (value_at labels w) i.

Theorem C186_surface labels vac ts order junk nodes M2 :
  (0 < M2)%Q -> (sq_norm (fst (fst matrix)) <= M2)%Q -> (sq_norm (snd (fst matrix)) <= M2)%Q -> (sq_norm (snd matrix) <= M2)%Q ->
  (forall a b, 0 <= a -> a < b -> root a < root b)%Q ->
  covers nx ny nz order -> (forall s, In s ts -> unit_offset s) ->
  partition nodes (List.length junk) ->
  (forall v, in_grid nx ny nz v -> value_at vac v = false -> 0 <= value_at labels v < Z.of_nat (List.length junk)) ->
  let r := calculate_feature_surface_dists nx ny nz root matrix labels vac ts order junk nodes (root (4 * M2))%Q in
  List.length (fst r) = List.length nodes /\ List.length (snd r) = List.length nodes /\
  forall i n, nth_error nodes i = Some n -> (exists v, on_surface nodes labels vac ts i v) ->
  let d := fun v => root (sq_dist nx ny nz matrix (r_frac n) v) in
  (forall v, on_surface nodes labels vac ts i v -> (nth i (fst r) 0 <= d v)%Q) /\
  (exists v, on_surface nodes labels vac ts i v /\ nth i (fst r) 0%Q = d v) /\
  (exists sv, NoDup sv /\ (forall v, In v sv <-> on_surface nodes labels vac ts i v) /\
     (nth i (snd r) 0 == qsum (map d sv) / inject_Z (Z.of_nat (List.length sv)))%Q) /\
  (nth i (fst r) 0 <= nth i (snd r) 0)%Q.
Proof.
  intros HM M0 M1 M3 RT CO UN P IN. unfold calculate_feature_surface_dists. cbv zeta. rewrite feat_is_surf.
  set (m := feature_map junk nodes). set (lab := fun i j k => read_map m (labels i j k)).
  set (edge := reshape false (get_feature_edges nx ny nz labels (read_map m) ts vac order) ny nz).
  assert (VL : forall v, value_at lab v = read_map m (value_at labels v)) by (intros [[i j] k]; reflexivity).
  assert (VE : forall v, in_grid nx ny nz v -> value_at edge v = nth (voxel_number ny nz v) (get_feature_edges nx ny nz labels (read_map m) ts vac order) false).
  { intros [[i j] k] _. unfold edge, reshape, value_at, voxel_number, coords_to_flat. f_equal. f_equal. ring. }
  assert (BEL : forall v i, in_grid nx ny nz v -> value_at vac v = false -> (value_at lab v = Z.of_nat i <-> belongs nodes (value_at labels v) i)).
  { intros v i Gv Vv. rewrite VL. apply read_map_belongs; auto. }
  assert (EX : forall v, in_grid nx ny nz v -> value_at vac v = false -> exists i, (i < List.length nodes)%nat /\ value_at lab v = Z.of_nat i).
  { intros v Gv Vv. destruct (proj1 (proj2 P) (Z.to_nat (value_at labels v))) as (i & n & E & I); [specialize (IN v Gv Vv); lia|].
    exists i. split; [apply nth_error_Some; congruence|]. apply BEL; auto. exists n. split; [exact E|]. exists (Z.to_nat (value_at labels v)). split; [specialize (IN v Gv Vv); lia|exact I]. }
  assert (TG : forall v s w, periodic_target nx ny nz v s w -> in_grid nx ny nz w).
  { intros [[i j] k] [[a b] c] w ->. cbn. repeat split; apply Z.mod_pos_bound; assumption. }
  assert (OWN : forall v i, in_grid nx ny nz v /\ value_at edge v = true /\ value_at lab v = Z.of_nat i <-> on_surface nodes labels vac ts i v).
  { intros v i. unfold on_surface. split.
    - intros (Gv & Ev & Lv). rewrite VE in Ev by exact Gv. apply (CoreProps.C15_feature_edges nx ny nz NX NY NZ labels (read_map m) ts vac order v CO Gv UN) in Ev as (Vv & s & w & S & T & Vw & D).
      split; [exact Gv|]. split; [exact Vv|]. split; [now apply BEL|]. exists s, w. do 3 (split; [assumption|]). intro B. apply (BEL w i (TG v s w T) Vw) in B.
      apply D. rewrite <- !VL. congruence.
    - intros (Gv & Vv & B & s & w & S & T & Vw & NB). split; [exact Gv|]. apply (BEL v i Gv Vv) in B. split; [|exact B]. rewrite VE by exact Gv.
      apply (CoreProps.C15_feature_edges nx ny nz NX NY NZ labels (read_map m) ts vac order v CO Gv UN). split; [exact Vv|]. exists s, w. do 3 (split; [assumption|]).
      rewrite <- !VL, B. intro E. apply NB. now apply (BEL w i (TG v s w T) Vw). }
  assert (RNG : forall v, in_grid nx ny nz v -> value_at edge v = true -> 0 <= value_at lab v < Z.of_nat (List.length (map r_frac nodes))).
  { intros v Gv Ev. rewrite VE in Ev by exact Gv. apply (CoreProps.C15_feature_edges nx ny nz NX NY NZ labels (read_map m) ts vac order v CO Gv UN) in Ev as (Vv & _).
    destruct (EX v Gv Vv) as (i & Li & ->). rewrite map_length. lia. }
  destruct (C19_surface nx ny nz root matrix lab (map r_frac nodes) edge M2 HM M0 M1 M3 RT RNG) as (L1 & L2 & N). rewrite map_length in *.
  split; [exact L1|]. split; [exact L2|]. intros i n E (v0 & H0). assert (LI : (i < List.length nodes)%nat) by (apply nth_error_Some; congruence).
  specialize (N i LI). cbv zeta in N. destruct N as (A & B & C & D); [exists v0; now apply OWN|].
  assert (FR : nth i (map r_frac nodes) (0, 0, 0)%Q = r_frac n) by (apply nth_error_nth; now apply map_nth_error). rewrite FR in *.
  split; [intros v H; apply A; now apply OWN|]. split; [destruct B as (v & Ov & Bv); exists v; split; [now apply OWN|exact Bv]|]. split; [|exact D].
  eexists. split; [|split; [|exact C]].
  - apply NoDup_filter, NearProofs.vox_nodup.
  - intro v. rewrite filter_In, Bool.andb_true_iff, Z.eqb_eq, in_voxels. apply OWN.
Qed.
End Surfaces.
Print Assumptions C186_surface.

(** Two features on a line of eight voxels; basins 1 and 2 make up the second one, the last voxel is vacuum. *)
Definition fs_nodes : list rnode := [RNode Shell [0%nat] (0, 0, 0)%Q 1 1 [0%nat] [0%nat]; RNode Covalent [2%nat; 1%nat] (0, 0, 1 # 2)%Q 1 1 [0%nat] [0%nat]].
Definition fs_vac : arr3 bool := fun _ _ k => Z.eqb k 7.
Example C186_ex : let r := calculate_feature_surface_dists 1 1 8 (fun q => q) unit_cell (line_labels [0; 0; 1; 1; 2; 2; 2; -1]%Z) fs_vac
    [(0, 0, 1); (0, 0, -1)]%Z (seq 0 8) [99; 98; 97]%Z fs_nodes 4 in
  Forall2 Qeq (fst r) [1 # 64; 4 # 64]%Q /\ Forall2 Qeq (snd r) [1 # 64; 4 # 64]%Q.
Proof. vm_compute. repeat constructor. Qed.
Example C186_ex_hyps : partition fs_nodes 3 /\ covers 1 1 8 (seq 0 8) /\
  (forall v, in_grid 1 1 8 v -> value_at fs_vac v = false -> (0 <= value_at (line_labels [0; 0; 1; 1; 2; 2; 2; -1]%Z) v < 3)%Z).
Proof.
  split; [|split].
  - split; [|split].
    + intros [|[|i]] n b E I; cbn in E; try (destruct i; discriminate); injection E as <-; cbn in I; lia.
    + intros [|[|[|b]]] H; [exists 0, (nth 0 fs_nodes no_node)|exists 1, (nth 1 fs_nodes no_node)|exists 1, (nth 1 fs_nodes no_node)|lia]; (split; [reflexivity|cbn; lia]).
    + intros [|[|i]] [|[|j]] n n' b E E' I I'; cbn in E, E'; try (destruct i; discriminate); try (destruct j; discriminate); try reflexivity;
        injection E as <-; injection E' as <-; cbn in I, I'; lia.
  - intros i H. apply in_seq. cbn in H |- *. lia.
  - intros [[i j] k] (_ & _ & Hk) V. unfold value_at, fs_vac, line_labels in *. apply Z.eqb_neq in V.
    assert (C : (k = 0 \/ k = 1 \/ k = 2 \/ k = 3 \/ k = 4 \/ k = 5 \/ k = 6)%Z) by lia. destruct C as [->|[->|[->|[->|[->|[->| ->]]]]]]; vm_compute; (split; [discriminate|reflexivity]).
Qed.
